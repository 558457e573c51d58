(** * Base: outcomes of executing the modelled Rust code

    A Rust computation either returns a value, panics (safe, observable
    failure), executes undefined behaviour (an out-of-range
    [get_unchecked]), or - in the model only - runs out of the fuel that
    bounds every loop and recursion.  None of these is ever turned into a
    normal-looking value. *)
From Coq Require Import List Arith ZArith Bool.
Import ListNotations.

(** Every panic site of the code that is modelled, named after the
    expression that panics. *)
Inductive psite :=
| P_repeat_points            (* shape.rs:24      assert!(false, "repeat points")     *)
| P_two_edges                (* points.rs:80     "one point only has two edges"      *)
| P_edges_mut_unwrap         (* cdt.rs:279,284   get_edges_mut(..).unwrap()          *)
| P_no_points                (* cdt.rs:231       get_id_by_y(0).unwrap()             *)
| P_front_new                (* vec_backed.rs:96-104 get_point(..).expect(..)        *)
| P_point_not_in_triangle    (* shape.rs:136,149,206,218,230,242,252,278,290,317     *)
| P_neighbor_across          (* shape.rs:297     panic!("break here")                *)
| P_neighbor_index           (* shape.rs:264     panic!("not valid neighbor")        *)
| P_get_mut_two              (* triangles.rs:91,122 assert!(ids distinct, in range)  *)
| P_not_neighbors            (* triangles.rs:186 debug_assert "they are not neighbors" *)
| P_dbg_invalid_tid          (* triangles.rs:78  debug_assert!(!id.invalid())        *)
| P_get_mut_unwrap           (* sweeper.rs:98    get_mut(t).unwrap()                 *)
| P_locate_underflow         (* vec_backed.rs:203 idx - 1 with overflow checks       *)
| P_front_index              (* vec_backed.rs:310,335 nodes[i-1], nodes[i+1], ranges *)
| P_front_update_unwrap      (* vec_backed.rs:174 get_mut(update_index).unwrap()     *)
| P_front_dbg                (* vec_backed.rs:143,171,175 debug_assert!              *)
| P_front_remove             (* vec_backed.rs:179 Vec::remove out of range           *)
| P_update_triangle          (* vec_backed.rs:239 search(..).unwrap()                *)
| P_node_unwrap              (* sweeper.rs: .unwrap() on a front node lookup         *)
| P_triangle_unwrap          (* sweeper.rs: .triangle.unwrap()                       *)
| P_common_edge_unwrap       (* sweeper.rs:234   common_edge_index(ot).unwrap()      *)
| P_point_index_unwrap       (* sweeper.rs:162   point_index(op).unwrap()            *)
| P_edge_event_invalid       (* sweeper.rs:833   assert!(!triangle_id.invalid())     *)
| P_collinear                (* sweeper.rs:862,888 "collinear points not supported"  *)
| P_opposing_on_edge         (* sweeper.rs:1006  "Opposing point on constrained edge"*)
| P_flip_scan_null           (* sweeper.rs:1024  "null neighbor across"              *)
| P_basin_expect             (* sweeper.rs:1179  expect("already in basin")          *)
| P_dbg_orient_same          (* utils.rs:35      debug_assert points differ          *)
| P_dbg_verify               (* sweeper.rs:57    debug_assert!(verify_triangles())   *)
| P_loader_unwrap            (* loader.rs:78-81  unwrap() in parse_point             *)
| P_loader_hole              (* loader.rs:58     holes.last_mut().unwrap()           *)
.

(** Every unchecked access of the code that is modelled. *)
Inductive usite :=
| U_point                    (* points.rs:27,200,208,209 points.get_unchecked        *)
| U_triangle                 (* triangles.rs:74,79,161 triangles.get_unchecked       *)
| U_triangle_raw             (* triangles.rs:130-155 slice.add(id)                   *)
| U_alias                    (* triangles.rs:106-158 two live &mut to one triangle   *)
| U_flip_across              (* sweeper.rs:921 ot_id.get(..) in flip_edge_event      *)
| U_front                    (* vec_backed.rs:207,216,227,234,252,278,290            *)
| U_result                   (* cdt.rs:204 result.get_unchecked                      *)
.

Inductive res (A : Type) : Type :=
| Done (a : A)
| Panic (s : psite)
| Ub (s : usite)
| OutOfFuel.
Arguments Done {A} a. Arguments Panic {A} s. Arguments Ub {A} s. Arguments OutOfFuel {A}.

Definition rbind {A B} (m : res A) (k : A -> res B) : res B :=
  match m with Done a => k a | Panic s => Panic s | Ub s => Ub s | OutOfFuel => OutOfFuel end.

Notation "'let!' x ':=' m 'in' k" := (rbind m (fun x => k))
  (at level 200, x pattern, m at level 100, k at level 200, right associativity).

(** [Option::unwrap]/[expect] at a named site. *)
Definition unwrap {A} (s : psite) (o : option A) : res A :=
  match o with Some a => Done a | None => Panic s end.

(** [slice.get_unchecked(i)]: out of range is undefined behaviour. *)
Definition get_unchecked {A} (s : usite) (l : list A) (i : nat) : res A :=
  match nth_error l i with Some a => Done a | None => Ub s end.

(** [assert!] *)
Definition rassert (s : psite) (b : bool) : res unit := if b then Done tt else Panic s.

(** [vec[i] = a] for an index already known to be in range. *)
Fixpoint list_set {A} (l : list A) (i : nat) (a : A) : list A :=
  match l, i with
  | [], _ => []
  | _ :: l', O => a :: l'
  | x :: l', S i' => x :: list_set l' i' a
  end.

(** [Vec::insert(i, a)] for i <= len *)
Fixpoint list_insert {A} (l : list A) (i : nat) (a : A) : list A :=
  match i, l with
  | O, _ => a :: l
  | S _, [] => [a]
  | S i', x :: l' => x :: list_insert l' i' a
  end.

(** [Vec::remove(i)] for i < len *)
Fixpoint list_remove {A} (l : list A) (i : nat) : list A :=
  match l, i with
  | [], _ => []
  | _ :: l', O => l'
  | x :: l', S i' => x :: list_remove l' i'
  end.
