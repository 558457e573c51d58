(** * Triangles: model of src/triangles.rs *)
From Coq Require Import List Arith Bool.
From Verif Require Import Base Num Shape.
Import ListNotations.

(** triangles.rs:42-45 *)
Definition TriangleStore := list InnerTriangle.

(** triangles.rs:64-68 *)
Definition ts_insert (ts : TriangleStore) (t : InnerTriangle) : tid * TriangleStore :=
  (Some (length ts), ts ++ [t]).

(** triangles.rs:70-75 (and [try_get] :18-20) *)
Definition ts_get (ts : TriangleStore) (id : tid) : res (option InnerTriangle) :=
  match id with
  | None => Done None
  | Some i => let! t := get_unchecked U_triangle ts i in Done (Some t)
  end.

(** triangles.rs:82-84 *)
Definition ts_get_mut (ts : TriangleStore) (id : tid) : option InnerTriangle :=
  match id with None => None | Some i => nth_error ts i end.

Section S.
Variable dbg : bool.

(** triangles.rs:77-80 (and [TriangleId::get] :14-16) reading index
    [usize::MAX] when the id is INVALID.  [s] names the access. *)
Definition ts_get_unchecked_at (s : usite) (ts : TriangleStore) (id : tid) : res InnerTriangle :=
  match id with
  | None => if dbg then Panic P_dbg_invalid_tid else Ub s
  | Some i => get_unchecked s ts i
  end.
Definition ts_get_unchecked := ts_get_unchecked_at U_triangle.

(** triangles.rs:160-162: no debug assertion here *)
Definition ts_get_mut_unchecked (ts : TriangleStore) (id : tid) : res InnerTriangle :=
  match id with
  | None => Ub U_triangle
  | Some i => get_unchecked U_triangle ts i
  end.

(** Write back through a [&mut InnerTriangle] obtained for [id]. *)
Definition ts_put (ts : TriangleStore) (id : tid) (t : InnerTriangle) : TriangleStore :=
  match id with None => ts | Some i => list_set ts i t end.

(** triangles.rs:91-95: the assertion of [get_mut_two] and [get_mut_six] *)
Definition get_mut_two_ok (ts : TriangleStore) (id_0 id_1 : tid) : bool :=
  match id_0, id_1 with
  | Some i, Some j => negb (i =? j) && (i <? length ts) && (j <? length ts)
  | _, _ => false
  end.

(** triangles.rs:179-200 *)
Definition mark_neighbor_for_two_mut (left right : tid) (lt rt : InnerTriangle)
  : res (InnerTriangle * InnerTriangle) :=
  match common_edge_index lt rt with
  | None => if dbg then Panic P_not_neighbors else Done (lt, rt)
  | Some (l_ei, r_ei) =>
      let c := tri_is_constrained lt l_ei || tri_is_constrained rt r_ei in
      let lt := with_neighbors lt (set3 (t_neighbors lt) l_ei right) in
      let lt := tri_set_constrained lt l_ei c in
      let lt := tri_set_delaunay lt l_ei false in
      let rt := with_neighbors rt (set3 (t_neighbors rt) r_ei left) in
      let rt := tri_set_constrained rt r_ei c in
      let rt := tri_set_delaunay rt r_ei false in
      Done (lt, rt)
  end.

(** The same through two [&mut] into the store. *)
Definition mark_neighbor_cells (s : usite) (ts : TriangleStore) (left right : tid) : res TriangleStore :=
  let! lt := ts_get_unchecked_at s ts left in
  let! rt := ts_get_unchecked_at s ts right in
  let! (lt', rt') := mark_neighbor_for_two_mut left right lt rt in
  Done (ts_put (ts_put ts left lt') right rt').

(** triangles.rs:106-158 [get_mut_six]: the assertion, then six references
    made from raw pointers.  [&mut] references must not alias, so two equal
    valid ids among the six are undefined behaviour, as is an id out of range. *)
Fixpoint some_ids (l : list tid) : list nat :=
  match l with [] => [] | None :: l' => some_ids l' | Some i :: l' => i :: some_ids l' end.
Fixpoint nodupb (l : list nat) : bool :=
  match l with [] => true | x :: l' => negb (existsb (Nat.eqb x) l') && nodupb l' end.
Definition get_mut_six_ok (ts : TriangleStore) (id_0 id_1 id_2 id_3 id_4 id_5 : tid) : res unit :=
  let! _ := rassert P_get_mut_two (get_mut_two_ok ts id_0 id_1) in
  if forallb (fun i => i <? length ts) (some_ids [id_2; id_3; id_4; id_5]) then
    if nodupb (some_ids [id_0; id_1; id_2; id_3; id_4; id_5]) then Done tt else Ub U_alias
  else Ub U_triangle_raw.

(** triangles.rs:172-175 *)
Definition mark_neighbor (ts : TriangleStore) (left right : tid) : res TriangleStore :=
  let! _ := rassert P_get_mut_two (get_mut_two_ok ts left right) in
  mark_neighbor_cells U_triangle_raw ts left right.
End S.
