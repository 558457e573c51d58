(** * Utils: model of src/utils.rs *)
From Coq Require Import Bool.
From Verif Require Import Base Num Shape.

(** utils.rs:4-18 *)
Inductive Orientation := CW | CCW | Collinear.
(** utils.rs:21-31 *)
Definition is_cw (o : Orientation) : bool := match o with CW => true | _ => false end.
Definition is_ccw (o : Orientation) : bool := match o with CCW => true | _ => false end.
Definition is_collinear (o : Orientation) : bool := match o with Collinear => true | _ => false end.
(** derive(PartialEq) utils.rs:3 *)
Definition orientation_eqb (a b : Orientation) : bool :=
  match a, b with CW, CW | CCW, CCW | Collinear, Collinear => true | _, _ => false end.

Section S.
Context {A : Arith}.
(** [dbg]: a build with debug assertions (and overflow checks). *)
Variable dbg : bool.

(** utils.rs:34-50 *)
Definition orient_2d (a b c : Point) : res Orientation :=
  let! _ := (if dbg then
               rassert P_dbg_orient_same
                 (negb (point_eq a b) && negb (point_eq a c) && negb (point_eq b c))
             else Done tt) in
  Done (match r_orient2d (px a) (py a) (px b) (py b) (px c) (py c) with
        | Gt => CCW | Lt => CW | Eq => Collinear end).

(** utils.rs:54-61 *)
Definition in_circle (pa pb pc pd : Point) : bool :=
  match r_incircle (px pa) (py pa) (px pb) (py pb) (px pc) (py pc) (px pd) (py pd) with
  | Gt => true | _ => false end.

(** utils.rs:63-75 *)
Definition in_scan_area (a b c d : Point) : bool :=
  let oadb := f_sub (f_mul (f_sub (px a) (px b)) (f_sub (py d) (py b)))
                    (f_mul (f_sub (px d) (px b)) (f_sub (py a) (py b))) in
  if f_le f_neg_eps oadb then false
  else
    let oadc := f_sub (f_mul (f_sub (px a) (px c)) (f_sub (py d) (py c)))
                      (f_mul (f_sub (px d) (px c)) (f_sub (py a) (py c))) in
    if f_le oadc f_eps then false else true.

(** utils.rs:78-81 *)
Record Angle := mkAngle { dy : num; dx : num }.

(** utils.rs:85-95 *)
Definition angle_new (o a b : Point) : Angle :=
  let dax := f_sub (px a) (px o) in
  let day := f_sub (py a) (py o) in
  let dbx := f_sub (px b) (px o) in
  let dby := f_sub (py b) (py o) in
  let y := f_sub (f_mul dax dby) (f_mul day dbx) in
  let x := f_add (f_mul dax dbx) (f_mul day dby) in
  mkAngle y x.

(** utils.rs:98-110 *)
Definition between_0_to_90_degree (a : Angle) : bool :=
  if f_eq (dx a) f_zero && f_eq (dy a) f_zero then true
  else if f_lt f_zero (dx a) then f_lt f_zero (dy a)
  else false.

(** utils.rs:113-127 *)
Definition exceeds_90_degree (a : Angle) : bool :=
  if f_eq (dx a) f_zero && f_eq (dy a) f_zero then false
  else if f_le f_zero (dx a) then false
  else f_lt f_zero (dy a).

(** utils.rs:130-138 *)
Definition is_negative (a : Angle) : bool :=
  if f_eq (dx a) f_zero && f_eq (dy a) f_zero then false
  else if f_le f_zero (dx a) then f_lt (dy a) f_zero
  else f_lt (dy a) f_zero.
End S.
