(** * IntSpec: inputs with integer or fixed-point coordinates, described in integers only

    The code adds two artificial points to the input: with the bounding box [xlo, xhi] x [ylo, yhi]
    they are (xlo - 0.3 dx, ylo - 0.3 dy) and (xhi + 0.3 dx, ylo - 0.3 dy) (points.rs:163-174), up to
    rounding.  Written in tenths they are integer points. *)
From Coq Require Import List ZArith Bool.
From Coq.Floats Require Import SpecFloat.
From Verif Require Import Num Shape F64 Exact.
Import ListNotations.
Local Open Scope Z_scope.

(** ** fixed-point coordinates: multiples of a unit 2^e *)
(** the f64 n * 2^e (rounded, when it has more than 53 bits) *)
Definition fixed (e n : Z) : spec_float := binary_normalize 53 1024 n e false.
(** the point whose coordinates are those of z times 2^e; e = 0 for integer coordinates *)
Definition grid (e : Z) (z : zpt) : @Point F64 := @mkPoint F64 (fixed e (fst z)) (fixed e (snd z)).
(** the units covered: not so small that products of differences disappear in EPSILON = 2^-52, not so large that products overflow *)
Definition unit_ok (e : Z) : Prop := -20 <= e <= 400.
Lemma unit_0 : unit_ok 0. Proof. split; discriminate. Qed.

Definition least (l : list Z) : Z := fold_right Z.min (hd 0 l) l.
Definition greatest (l : list Z) : Z := fold_right Z.max (hd 0 l) l.
Definition tenths (zs : list zpt) : list zpt :=
  let xlo := least (map fst zs) in let xhi := greatest (map fst zs) in
  let ylo := least (map snd zs) in let yhi := greatest (map snd zs) in
  map (fun z => (10 * fst z, 10 * snd z)) zs ++
  [(10 * xlo - 3 * (xhi - xlo), 10 * ylo - 3 * (yhi - ylo)); (10 * xhi + 3 * (xhi - xlo), 10 * ylo - 3 * (yhi - ylo))].

(** at least three points, coordinates of at most 16 bits, no three points on a line, the artificial ones included *)
Definition no_three_collinear (l : list zpt) : Prop := forall i j k, (i < j)%nat -> (j < k)%nat -> (k < length l)%nat ->
  orient (nth i l (0, 0)) (nth j l (0, 0)) (nth k l (0, 0)) <> 0.
Definition integer_input (zs : list zpt) : Prop :=
  (3 <= length zs)%nat /\ Forall (fun z => Z.abs (fst z) <= 65536 /\ Z.abs (snd z) <= 65536) zs /\ no_three_collinear (tenths zs).

(** coordinates of vertex v *)
Definition zat (zs : list zpt) (v : nat) : zpt := nth v zs (0, 0).
(** no two of the edges cross: the ends of each strictly on different sides of the other *)
Definition edges_apart (zs : list zpt) (es : list (nat * nat)) : Prop := forall e e', In e es -> In e' es ->
  ~ (orient (zat zs (fst e)) (zat zs (snd e)) (zat zs (fst e')) * orient (zat zs (fst e)) (zat zs (snd e)) (zat zs (snd e')) < 0 /\
     orient (zat zs (fst e')) (zat zs (snd e')) (zat zs (fst e)) * orient (zat zs (fst e')) (zat zs (snd e')) (zat zs (snd e)) < 0).
(** the edge p-q, q its upper end, leans to the right, and below it there is a cap: two points v, w below the edge
    that follow a point u on or above it, from left to right between q and p, without a left turn *)
Definition capped (zs : list zpt) (p q : nat) : Prop :=
  ylt (zat zs p) (zat zs q) /\ fst (zat zs q) < fst (zat zs p) /\ exists u v w, (u < length zs)%nat /\ (v < length zs)%nat /\ (w < length zs)%nat /\
  fst (zat zs q) <= fst (zat zs u) /\ fst (zat zs u) < fst (zat zs v) /\ fst (zat zs v) < fst (zat zs w) /\ fst (zat zs w) < fst (zat zs p) /\
  orient (zat zs q) (zat zs u) (zat zs p) <= 0 /\ 0 < orient (zat zs q) (zat zs v) (zat zs p) /\ 0 < orient (zat zs q) (zat zs w) (zat zs p) /\
  orient (zat zs u) (zat zs v) (zat zs w) <= 0.
(** no point is strictly inside a triangle of three others *)
Definition convex_points (zs : list zpt) : Prop := forall a b c d, (a < length zs)%nat -> (b < length zs)%nat -> (c < length zs)%nat -> (d < length zs)%nat ->
  ~ (0 < orient (zat zs a) (zat zs b) (zat zs d) /\ 0 < orient (zat zs b) (zat zs c) (zat zs d) /\ 0 < orient (zat zs c) (zat zs a) (zat zs d)).
