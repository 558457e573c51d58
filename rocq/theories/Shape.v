(** * Shape: model of src/shape.rs *)
From Coq Require Import List Arith NArith Bool.
From Verif Require Import Base Num.
Import ListNotations.

(** [PointId(u32)] (points.rs:12).  Simplification: ids are unbounded [nat];
    the wrap of [len as u32] at 2^32 points is not modelled. *)
Notation pid := nat (only parsing).
(** [TriangleId(usize)] with [INVALID = usize::MAX] (triangles.rs:3-37):
    [None] is INVALID, [Some i] the index i. *)
Notation tid := (option nat) (only parsing).

(** shape.rs:3-9 *)
Record Edge := mkEdge { e_p : pid; e_q : pid }.

Section PointSec.
Context {A : Arith}.

(** shape.rs:32-36 *)
Record Point := mkPoint { px : num; py : num }.

(** shape.rs:52-54 *)
Definition point_eq (a b : Point) : bool := f_eq (px a) (px b) && f_eq (py a) (py b).

(** shape.rs:12-29 *)
Definition edge_new (p1_id : pid) (p1 : Point) (p2_id : pid) (p2 : Point) : res Edge :=
  if f_lt (py p2) (py p1) then Done (mkEdge p2_id p1_id)
  else if f_eq (py p1) (py p2) then
    if f_lt (px p2) (px p1) then Done (mkEdge p2_id p1_id)
    else if f_eq (px p1) (px p2) then Panic P_repeat_points
    else Done (mkEdge p1_id p2_id)
  else Done (mkEdge p1_id p2_id).
End PointSec.

(** ** EdgeAttr (shape.rs:57-100): a u8 with two flag bits *)
Definition EdgeAttr := N.
Definition ATTR_ALL : N := 255.                              (* :75 *)
Definition CONSTRAINED : N := 1.                             (* :70 *)
Definition CONSTRAINED_UNSET : N := N.lxor ATTR_ALL CONSTRAINED.
Definition DELAUNAY : N := N.shiftl 1 1.                     (* :72 *)
Definition DELAUNAY_UNSET : N := N.lxor ATTR_ALL DELAUNAY.
Definition attr_default : EdgeAttr := 0%N.                   (* derive(Default) :57 *)

(** shape.rs:77-83 *)
Definition attr_set_constrained (a : EdgeAttr) (val : bool) : EdgeAttr :=
  if negb val then N.land a CONSTRAINED_UNSET else N.lor a CONSTRAINED.
(** shape.rs:85-87 *)
Definition attr_is_constrained (a : EdgeAttr) : bool := negb (N.eqb (N.land a CONSTRAINED) 0).
(** shape.rs:89-95 *)
Definition attr_set_delaunay (a : EdgeAttr) (val : bool) : EdgeAttr :=
  if negb val then N.land a DELAUNAY_UNSET else N.lor a DELAUNAY.
(** shape.rs:97-99 *)
Definition attr_is_delaunay (a : EdgeAttr) : bool := negb (N.eqb (N.land a DELAUNAY) 0).

(** ** Arrays of length three.  The code only indexes them with 0, 1, 2, so
    indices are the three-valued type [ix] and no index can be out of range. *)
Inductive ix := I0 | I1 | I2.
Definition ix_all : list ix := [I0; I1; I2].                 (* for i in 0..3 *)
Record arr3 (T : Type) := mkArr { a0 : T; a1 : T; a2 : T }.
Arguments mkArr {T}. Arguments a0 {T}. Arguments a1 {T}. Arguments a2 {T}.
Definition get3 {T} (a : arr3 T) (i : ix) : T :=
  match i with I0 => a0 a | I1 => a1 a | I2 => a2 a end.
Definition set3 {T} (a : arr3 T) (i : ix) (v : T) : arr3 T :=
  match i with
  | I0 => mkArr v (a1 a) (a2 a)
  | I1 => mkArr (a0 a) v (a2 a)
  | I2 => mkArr (a0 a) (a1 a) v
  end.

(** shape.rs:104-115 *)
Record InnerTriangle := mkTri {
  t_points : arr3 pid;
  t_neighbors : arr3 tid;
  t_attrs : arr3 EdgeAttr;
  t_interior : bool
}.

(** shape.rs:118-125 *)
Definition tri_new (a b c : pid) : InnerTriangle :=
  {| t_points := mkArr a b c;
     t_neighbors := mkArr None None None;
     t_attrs := mkArr attr_default attr_default attr_default;
     t_interior := false |}.

Definition with_points (t : InnerTriangle) ps :=
  mkTri ps (t_neighbors t) (t_attrs t) (t_interior t).
Definition with_neighbors (t : InnerTriangle) ns :=
  mkTri (t_points t) ns (t_attrs t) (t_interior t).
Definition with_attrs (t : InnerTriangle) eas :=
  mkTri (t_points t) (t_neighbors t) eas (t_interior t).
Definition with_interior (t : InnerTriangle) b :=
  mkTri (t_points t) (t_neighbors t) (t_attrs t) b.

(** shape.rs:161-171 *)
Definition point_index (t : InnerTriangle) (p : pid) : option ix :=
  let ps := t_points t in
  if a0 ps =? p then Some I0
  else if a1 ps =? p then Some I1
  else if a2 ps =? p then Some I2
  else None.

(** The cascade "if p == points[0] .. else if p == points[1] .. else if
    p == points[2] .. else panic" shared by shape.rs:128-151, 198-244,
    269-292: select the value for the position of [p]. *)
Definition by_point {T} (t : InnerTriangle) (p : pid) (v0 v1 v2 : T) : res T :=
  let ps := t_points t in
  if p =? a0 ps then Done v0
  else if p =? a1 ps then Done v1
  else if p =? a2 ps then Done v2
  else Panic P_point_not_in_triangle.

(** shape.rs:128-138 *)
Definition point_cw (t : InnerTriangle) (p : pid) : res pid :=
  by_point t p (a2 (t_points t)) (a0 (t_points t)) (a1 (t_points t)).
(** shape.rs:141-151 *)
Definition point_ccw (t : InnerTriangle) (p : pid) : res pid :=
  by_point t p (a1 (t_points t)) (a2 (t_points t)) (a0 (t_points t)).
(** shape.rs:154-157; [self] is the neighbour, [from] the triangle of [p] *)
Definition opposite_point (self from : InnerTriangle) (p : pid) : res pid :=
  let! cw := point_cw from p in point_cw self cw.

(** shape.rs:325-353 *)
Definition edge_index (t : InnerTriangle) (p q : pid) : option ix :=
  let ps := t_points t in
  if a0 ps =? p then
    if a1 ps =? q then Some I2 else if a2 ps =? q then Some I1 else None
  else if a1 ps =? p then
    if a0 ps =? q then Some I2 else if a2 ps =? q then Some I0 else None
  else if a2 ps =? p then
    if a0 ps =? q then Some I1 else if a1 ps =? q then Some I0 else None
  else None.

(** shape.rs:181-183 / 185-187 / 190-192 / 194-196 *)
Definition tri_set_constrained (t : InnerTriangle) (i : ix) (val : bool) : InnerTriangle :=
  with_attrs t (set3 (t_attrs t) i (attr_set_constrained (get3 (t_attrs t) i) val)).
Definition tri_is_constrained (t : InnerTriangle) (i : ix) : bool :=
  attr_is_constrained (get3 (t_attrs t) i).
Definition tri_set_delaunay (t : InnerTriangle) (i : ix) (val : bool) : InnerTriangle :=
  with_attrs t (set3 (t_attrs t) i (attr_set_delaunay (get3 (t_attrs t) i) val)).
Definition tri_is_delaunay (t : InnerTriangle) (i : ix) : bool :=
  attr_is_delaunay (get3 (t_attrs t) i).

(** shape.rs:174-178 *)
Definition set_constrained_for_edge (t : InnerTriangle) (p q : pid) : InnerTriangle :=
  match edge_index t p q with
  | Some i => tri_set_constrained t i true
  | None => t
  end.

(** shape.rs:198-208 *)
Definition edge_attr_ccw (t : InnerTriangle) (p : pid) : res EdgeAttr :=
  by_point t p (a2 (t_attrs t)) (a0 (t_attrs t)) (a1 (t_attrs t)).
(** shape.rs:234-244 *)
Definition edge_attr_cw (t : InnerTriangle) (p : pid) : res EdgeAttr :=
  by_point t p (a1 (t_attrs t)) (a2 (t_attrs t)) (a0 (t_attrs t)).
(** shape.rs:210-220 *)
Definition set_edge_attr_ccw (t : InnerTriangle) (p : pid) (v : EdgeAttr) : res InnerTriangle :=
  let! i := by_point t p I2 I0 I1 in Done (with_attrs t (set3 (t_attrs t) i v)).
(** shape.rs:222-232 *)
Definition set_edge_attr_cw (t : InnerTriangle) (p : pid) (v : EdgeAttr) : res InnerTriangle :=
  let! i := by_point t p I1 I2 I0 in Done (with_attrs t (set3 (t_attrs t) i v)).

(** shape.rs:247-254 *)
Definition constrained_edge_cw (t : InnerTriangle) (p : pid) : res bool :=
  match point_index t p with
  | Some I0 => Done (attr_is_constrained (a1 (t_attrs t)))
  | Some I1 => Done (attr_is_constrained (a2 (t_attrs t)))
  | Some I2 => Done (attr_is_constrained (a0 (t_attrs t)))
  | None => Panic P_point_not_in_triangle
  end.

Definition tid_eqb (a b : tid) : bool :=
  match a, b with
  | Some x, Some y => x =? y
  | None, None => true
  | _, _ => false
  end.
(** triangles.rs:10-12 *)
Definition tid_invalid (a : tid) : bool := match a with None => true | Some _ => false end.

(** shape.rs:256-266 *)
Definition neighbor_index (t : InnerTriangle) (id : tid) : res ix :=
  let ns := t_neighbors t in
  if tid_eqb (a0 ns) id then Done I0
  else if tid_eqb (a1 ns) id then Done I1
  else if tid_eqb (a2 ns) id then Done I2
  else Panic P_neighbor_index.

(** shape.rs:269-279 *)
Definition neighbor_ccw (t : InnerTriangle) (p : pid) : res tid :=
  by_point t p (a2 (t_neighbors t)) (a0 (t_neighbors t)) (a1 (t_neighbors t)).
(** shape.rs:282-292 *)
Definition neighbor_cw (t : InnerTriangle) (p : pid) : res tid :=
  by_point t p (a1 (t_neighbors t)) (a2 (t_neighbors t)) (a0 (t_neighbors t)).
(** shape.rs:295-300 *)
Definition neighbor_across (t : InnerTriangle) (p : pid) : res tid :=
  match point_index t p with
  | Some i => Done (get3 (t_neighbors t) i)
  | None => Panic P_neighbor_across
  end.

(** shape.rs:303-319.  The three assignments of each branch are written out
    as the resulting array. *)
Definition rotate_cw (t : InnerTriangle) (o n : pid) : res InnerTriangle :=
  let ps := t_points t in
  if o =? a0 ps then Done (with_points t (mkArr (a2 ps) (a0 ps) n))
  else if o =? a1 ps then Done (with_points t (mkArr n (a0 ps) (a1 ps)))
  else if o =? a2 ps then Done (with_points t (mkArr (a2 ps) n (a1 ps)))
  else Panic P_point_not_in_triangle.

(** shape.rs:321-323 *)
Definition clear_neighbors (t : InnerTriangle) : InnerTriangle :=
  with_neighbors t (mkArr None None None).

(** shape.rs:355-431 *)
Definition common_edge_index (self other : InnerTriangle) : option (ix * ix) :=
  let s := t_points self in
  let o := t_points other in
  if a1 s =? a0 o then
    if a2 s =? a2 o then Some (I0, I1)
    else if a0 s =? a1 o then Some (I2, I2) else None
  else if a1 s =? a1 o then
    if a2 s =? a0 o then Some (I0, I2)
    else if a0 s =? a2 o then Some (I2, I0) else None
  else if a1 s =? a2 o then
    if a2 s =? a1 o then Some (I0, I0)
    else if a0 s =? a0 o then Some (I2, I1) else None
  else if a0 s =? a0 o then
    if a2 s =? a1 o then Some (I1, I2)
    else if a1 s =? a2 o then Some (I2, I1) else None
  else if a0 s =? a2 o then
    if a2 s =? a0 o then Some (I1, I1)
    else if a1 s =? a1 o then Some (I2, I0) else None
  else if a0 s =? a1 o then
    if a1 s =? a0 o then Some (I2, I2)
    else if a2 s =? a2 o then Some (I1, I0) else None
  else if a2 s =? a0 o then
    if a0 s =? a2 o then Some (I1, I1)
    else if a1 s =? a1 o then Some (I0, I2) else None
  else if a2 s =? a1 o then
    if a0 s =? a0 o then Some (I1, I2)
    else if a1 s =? a2 o then Some (I0, I0) else None
  else if a2 s =? a2 o then
    if a1 s =? a0 o then Some (I0, I1)
    else if a0 s =? a1 o then Some (I1, I0) else None
  else None.
