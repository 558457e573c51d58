(** * Num: the floating-point operations the code uses

    [Float] (lib.rs:16-20) is [f64], or [f32] with the feature of that name.
    The model is written once, over an arithmetic interface listing exactly
    the operations the code performs on [Float]; it is instantiated with
    IEEE binary64 and binary32 in F64.v.  Theorems that do not mention an
    arithmetic law therefore hold for any arithmetic whatsoever, NaN,
    infinities and rounding included. *)
From Coq Require Import ZArith Bool.

Class Arith := mkArith {
  num : Type;
  f_add : num -> num -> num;
  f_sub : num -> num -> num;
  f_mul : num -> num -> num;
  f_lt : num -> num -> bool;       (* IEEE <, false on NaN  *)
  f_eq : num -> num -> bool;       (* IEEE ==, false on NaN *)
  f_zero : num;                    (* 0.  *)
  f_neg1 : num;                    (* -1. (sweeper.rs:1087) *)
  f_c03 : num;                     (* 0.3 (points.rs:164-165) *)
  f_eps : num;                     (* Float::EPSILON  *)
  f_neg_eps : num;                 (* -Float::EPSILON *)
  f_MIN : num;                     (* Float::MIN, the most negative finite value *)
  f_MAX : num;                     (* Float::MAX *)
  (** sign of [robust::orient2d(a, b, c)] for a=(ax,ay), b, c *)
  r_orient2d : num -> num -> num -> num -> num -> num -> comparison;
  (** sign of [robust::incircle(a, b, c, d)] *)
  r_incircle : num -> num -> num -> num -> num -> num -> num -> num -> comparison
}.

Section Derived.
Context {A : Arith}.

(** [<=] on floats: false on NaN. *)
Definition f_le (x y : num) : bool := f_lt x y || f_eq x y.

(** [f64::max] / [f64::min]: the other argument if one is NaN. *)
Definition f_max (x y : num) : num := if f_lt x y then y else if f_eq x x then x else y.
Definition f_min (x y : num) : num := if f_lt y x then y else if f_eq x x then x else y.

(** [f64::partial_cmp] *)
Definition f_partial_cmp (x y : num) : option comparison :=
  if f_lt x y then Some Lt else if f_lt y x then Some Gt else if f_eq x y then Some Eq else None.
End Derived.
