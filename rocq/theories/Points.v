(** * Points: model of src/points.rs *)
From Coq Require Import List Arith Bool.
From Verif Require Import Base Num Shape.
Import ListNotations.

(** points.rs:69-73 *)
Inductive PointEdges := ENone | EOne (p : pid) | ETwo (p0 p1 : pid).

(** points.rs:76-82 *)
Definition edges_push (e : PointEdges) (p : pid) : res PointEdges :=
  match e with
  | ENone => Done (EOne p)
  | EOne p0 => Done (ETwo p0 p)
  | ETwo _ _ => Panic P_two_edges
  end.

(** points.rs:94-109: one call of [Iterator::next] on [PointEdges] *)
Definition edges_next (e : PointEdges) : option pid * PointEdges :=
  match e with
  | ENone => (None, ENone)
  | EOne p => (Some p, ENone)
  | ETwo p0 p1 => (Some p0, EOne p1)
  end.

(** The whole iteration [for p in edges]: at most two calls yield an item. *)
Definition edges_list (e : PointEdges) : list pid :=
  match edges_next e with
  | (None, _) => []
  | (Some p, e1) =>
      match edges_next e1 with
      | (None, _) => [p]
      | (Some p', e2) => match edges_next e2 with (None, _) => [p; p'] | (Some p'', _) => [p; p'; p''] end
      end
  end.

Section S.
Context {A : Arith}.

(** points.rs:32-35 *)
Record PointsBuilder := mkPB { pb_points : list Point; pb_edges : list PointEdges }.

(** points.rs:38-43 (capacity is not observable) *)
Definition pb_new : PointsBuilder := mkPB [] [].

(** points.rs:46-51 *)
Definition pb_add_steiner_point (b : PointsBuilder) (p : Point) : pid * PointsBuilder :=
  (length (pb_points b), mkPB (pb_points b ++ [p]) (pb_edges b ++ [ENone])).

(** [Vec::resize(n, v)] *)
Definition vec_resize {T} (l : list T) (n : nat) (v : T) : list T :=
  firstn n l ++ repeat v (n - length l).

(** points.rs:54-57 *)
Definition pb_add_steiner_points (b : PointsBuilder) (ps : list Point) : PointsBuilder :=
  let points := pb_points b ++ ps in
  mkPB points (vec_resize (pb_edges b) (length points) ENone).

(** points.rs:59-61 with the [.unwrap().push(p)] of cdt.rs:279,284 *)
Definition pb_push_edge (b : PointsBuilder) (q p : pid) : res PointsBuilder :=
  let! e := unwrap P_edges_mut_unwrap (nth_error (pb_edges b) q) in
  let! e' := edges_push e p in
  Done (mkPB (pb_points b) (list_set (pb_edges b) q e')).

(** points.rs:114-120 *)
Record Points := mkPoints {
  ps_points : list Point;
  ps_edges : list PointEdges;
  ps_y_sorted : list pid;
  ps_head : pid;
  ps_tail : pid
}.

(** The "Less" answer of the comparator of points.rs:142-157; all other
    answers are [Greater]. *)
Definition y_less (p1 p2 : Point) : bool :=
  if f_lt (py p1) (py p2) then true
  else if f_eq (py p1) (py p2) then (if f_lt (px p1) (px p2) then true else false)
  else false.

(** [sort_by] (points.rs:142) is a stable comparison sort that consults only
    whether the comparator answers [Less]; modelled as insertion sort, which
    yields the same list as any stable sort whenever that relation is a
    strict weak order (it is one when no coordinate is NaN). *)
Fixpoint y_insert (x : pid * Point) (l : list (pid * Point)) : list (pid * Point) :=
  match l with
  | [] => [x]
  | z :: l' => if y_less (snd z) (snd x) then z :: y_insert x l' else x :: l
  end.
Fixpoint y_sort (l : list (pid * Point)) : list (pid * Point) :=
  match l with
  | [] => []
  | x :: l' => y_insert x (y_sort l')
  end.

(** points.rs:124-139: the running maxima and minima *)
Definition xmax_of (ps : list Point) : num := fold_left (fun m p => f_max m (px p)) ps f_MIN.
Definition xmin_of (ps : list Point) : num := fold_left (fun m p => f_min m (px p)) ps f_MAX.
Definition ymax_of (ps : list Point) : num := fold_left (fun m p => f_max m (py p)) ps f_MIN.
Definition ymin_of (ps : list Point) : num := fold_left (fun m p => f_min m (py p)) ps f_MAX.

(** points.rs:129-139: [enumerate] *)
Definition enumerate {T} (l : list T) : list (nat * T) := combine (seq 0 (length l)) l.

(** points.rs:163-174 *)
Definition head_point (ps : list Point) : Point :=
  let dx := f_mul (f_sub (xmax_of ps) (xmin_of ps)) f_c03 in
  let dy := f_mul (f_sub (ymax_of ps) (ymin_of ps)) f_c03 in
  mkPoint (f_sub (xmin_of ps) dx) (f_sub (ymin_of ps) dy).
Definition tail_point (ps : list Point) : Point :=
  let dx := f_mul (f_sub (xmax_of ps) (xmin_of ps)) f_c03 in
  let dy := f_mul (f_sub (ymax_of ps) (ymin_of ps)) f_c03 in
  mkPoint (f_add (xmax_of ps) dx) (f_sub (ymin_of ps) dy).

(** points.rs:123-187 *)
Definition points_new (points : list Point) (edges : list PointEdges) : Points :=
  let sorted_ids := map fst (y_sort (enumerate points)) in
  let n := length points in
  {| ps_points := points ++ [head_point points; tail_point points];
     ps_edges := edges ++ [ENone; ENone];
     ps_y_sorted := sorted_ids;
     ps_head := n;
     ps_tail := S n |}.

(** points.rs:63-65 *)
Definition pb_build (b : PointsBuilder) : Points := points_new (pb_points b) (pb_edges b).

(** points.rs:194-196 *)
Definition get_point (ps : Points) (id : pid) : option Point := nth_error (ps_points ps) id.
(** points.rs:199-201, 26-28 *)
Definition get_point_uncheck (ps : Points) (id : pid) : res Point :=
  get_unchecked U_point (ps_points ps) id.
(** points.rs:217-219 *)
Definition get_id_by_y (ps : Points) (order : nat) : option pid := nth_error (ps_y_sorted ps) order.

Fixpoint mapM {X Y} (f : X -> res Y) (l : list X) : res (list Y) :=
  match l with
  | [] => Done []
  | x :: l' => let! y := f x in let! ys := mapM f l' in Done (y :: ys)
  end.

(** points.rs:203-213.  The lazy iterator is modelled as the list of its
    items; its accesses are to immutable data, so evaluating them up front
    differs only in when an out-of-range access would occur. *)
Definition iter_point_by_y (ps : Points) (order : nat) : res (list (pid * Point * PointEdges)) :=
  mapM (fun id =>
          let! p := get_unchecked U_point (ps_points ps) id in
          let! e := get_unchecked U_point (ps_edges ps) id in
          Done (id, p, e)) (skipn order (ps_y_sorted ps)).

(** points.rs:189-191, 240-246 *)
Definition points_len (ps : Points) : nat := length (ps_points ps).
Definition points_without_fake (ps : Points) : list Point :=
  firstn (length (ps_points ps) - 2) (ps_points ps).
End S.
