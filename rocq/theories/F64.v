(** * F64: IEEE binary64 and binary32 instances of the arithmetic

    Operations are those of the standard library's [SpecFloat] (round to
    nearest, ties to even), which is executable and axiom-free.  The external
    crate [robust] is modelled by its documented contract: the sign of the
    exact determinant.  (For non-finite coordinates the contract says
    nothing; the model answers "zero".) *)
From Coq Require Import ZArith Bool List.
From Coq.Floats Require Import SpecFloat.
From Verif Require Import Num.
Import ListNotations.
Local Open Scope Z_scope.

Section Float.
Variables prec emax : Z.

(** exact value of a finite float: mantissa and exponent of two *)
Definition dyadic (x : spec_float) : option (Z * Z) :=
  match x with
  | S754_zero _ => Some (0, 0)
  | S754_finite s m e => Some (if s then Zneg m else Zpos m, e)
  | _ => None
  end.

(** bring a list of dyadics to one common exponent; integers proportional
    (by one positive power of two) to the exact values *)
Definition min_exp (l : list (Z * Z)) : Z :=
  fold_left (fun acc d => if fst d =? 0 then acc else Z.min acc (snd d)) l emax.
Definition align (l : list (Z * Z)) : list Z :=
  let e := min_exp l in
  map (fun d => if fst d =? 0 then 0 else Z.shiftl (fst d) (snd d - e)) l.

Fixpoint all_some {T} (l : list (option T)) : option (list T) :=
  match l with
  | [] => Some []
  | Some x :: l' => match all_some l' with Some r => Some (x :: r) | None => None end
  | None :: _ => None
  end.

(** (a - c) x (b - c): positive when a, b, c turn counter-clockwise *)
Definition orient_det (ax ay bx by_ cx cy : Z) : Z :=
  (ax - cx) * (by_ - cy) - (ay - cy) * (bx - cx).

(** the incircle determinant: positive when d lies inside the circle through
    a, b, c given counter-clockwise *)
Definition incircle_det (ax ay bx by_ cx cy dx dy : Z) : Z :=
  let adx := ax - dx in let ady := ay - dy in
  let bdx := bx - dx in let bdy := by_ - dy in
  let cdx := cx - dx in let cdy := cy - dy in
  let ad := adx * adx + ady * ady in
  let bd := bdx * bdx + bdy * bdy in
  let cd := cdx * cdx + cdy * cdy in
  ad * (bdx * cdy - bdy * cdx) + bd * (cdx * ady - cdy * adx) + cd * (adx * bdy - ady * bdx).

Definition sf_orient2d (ax ay bx by_ cx cy : spec_float) : comparison :=
  match all_some (map dyadic [ax; ay; bx; by_; cx; cy]) with
  | Some l => match align l with
              | [ax; ay; bx; by_; cx; cy] => orient_det ax ay bx by_ cx cy ?= 0
              | _ => Eq
              end
  | None => Eq
  end.
Definition sf_incircle (ax ay bx by_ cx cy dx dy : spec_float) : comparison :=
  match all_some (map dyadic [ax; ay; bx; by_; cx; cy; dx; dy]) with
  | Some l => match align l with
              | [ax; ay; bx; by_; cx; cy; dx; dy] => incircle_det ax ay bx by_ cx cy dx dy ?= 0
              | _ => Eq
              end
  | None => Eq
  end.
End Float.

(** [f64] (lib.rs:19-20): EPSILON = 2^-52, MAX = (2^53 - 1) * 2^971,
    0.3 = 5404319552844595 * 2^-54 *)
Definition F64 : Arith := {|
  num := spec_float;
  f_add := SFadd 53 1024;
  f_sub := SFsub 53 1024;
  f_mul := SFmul 53 1024;
  f_lt := SFltb;
  f_eq := SFeqb;
  f_zero := S754_zero false;
  f_neg1 := S754_finite true 4503599627370496 (-52);
  f_c03 := S754_finite false 5404319552844595 (-54);
  f_eps := S754_finite false 4503599627370496 (-104);
  f_neg_eps := S754_finite true 4503599627370496 (-104);
  f_MIN := S754_finite true 9007199254740991 971;
  f_MAX := S754_finite false 9007199254740991 971;
  r_orient2d := sf_orient2d 1024;
  r_incircle := sf_incircle 1024
|}.

(** [f32] (lib.rs:16-17, feature "f32"): EPSILON = 2^-23,
    MAX = (2^24 - 1) * 2^104, 0.3 = 10066330 * 2^-25 *)
Definition F32 : Arith := {|
  num := spec_float;
  f_add := SFadd 24 128;
  f_sub := SFsub 24 128;
  f_mul := SFmul 24 128;
  f_lt := SFltb;
  f_eq := SFeqb;
  f_zero := S754_zero false;
  f_neg1 := S754_finite true 8388608 (-23);
  f_c03 := S754_finite false 10066330 (-25);
  f_eps := S754_finite false 8388608 (-46);
  f_neg_eps := S754_finite true 8388608 (-46);
  f_MIN := S754_finite true 16777215 104;
  f_MAX := S754_finite false 16777215 104;
  r_orient2d := sf_orient2d 128;
  r_incircle := sf_incircle 128
|}.
