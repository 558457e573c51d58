(** * Exact: an arithmetic whose comparisons and robust predicates are exact
    on its finite values

    [zv] maps a finite value to an integer, all values being scaled by one
    common positive factor (for f64, 2^1074).  The factor is the same for
    every value, so the sign of any homogeneous polynomial is that of the
    real numbers. *)
From Coq Require Import ZArith Bool Lia List.
From Verif Require Import Base Num Shape Utils F64 Points Front.
Local Open Scope Z_scope.

Class Exact (A : Arith) := mkExact {
  fin : num -> Prop;
  zv : num -> Z;
  x_lt : forall a b, fin a -> fin b -> f_lt a b = (zv a <? zv b);
  x_eq : forall a b, fin a -> fin b -> f_eq a b = (zv a =? zv b);
  x_orient : forall ax ay bx by_ cx cy,
    fin ax -> fin ay -> fin bx -> fin by_ -> fin cx -> fin cy ->
    r_orient2d ax ay bx by_ cx cy =
    (orient_det (zv ax) (zv ay) (zv bx) (zv by_) (zv cx) (zv cy) ?= 0);
  x_incircle : forall ax ay bx by_ cx cy dx dy,
    fin ax -> fin ay -> fin bx -> fin by_ -> fin cx -> fin cy -> fin dx -> fin dy ->
    r_incircle ax ay bx by_ cx cy dx dy =
    (incircle_det (zv ax) (zv ay) (zv bx) (zv by_) (zv cx) (zv cy) (zv dx) (zv dy) ?= 0)
}.

(** ** The integer plane *)
Definition zpt := (Z * Z)%type.
Definition orient (a b c : zpt) : Z := orient_det (fst a) (snd a) (fst b) (snd b) (fst c) (snd c).
Definition incircle (a b c d : zpt) : Z :=
  incircle_det (fst a) (snd a) (fst b) (snd b) (fst c) (snd c) (fst d) (snd d).

(** (x, then y) order, used by the front; (y, then x) order, used by the sweep *)
Definition xlt (a b : zpt) : Prop := fst a < fst b \/ (fst a = fst b /\ snd a < snd b).
Definition ylt (a b : zpt) : Prop := snd a < snd b \/ (snd a = snd b /\ fst a < fst b).

Section S.
Context {A : Arith} {E : Exact A}.

Definition finp (p : Point) : Prop := fin (px p) /\ fin (py p).
Definition zp (p : Point) : zpt := (zv (px p), zv (py p)).

Lemma orient_2d_exact dbg a b c : finp a -> finp b -> finp c ->
  (dbg = true -> zp a <> zp b /\ zp a <> zp c /\ zp b <> zp c) ->
  orient_2d dbg a b c =
  Done (match orient (zp a) (zp b) (zp c) ?= 0 with Gt => CCW | Lt => CW | Eq => Collinear end).
Proof.
  intros [a1 a2] [b1 b2] [c1 c2] D. unfold orient_2d, orient, zp; simpl.
  rewrite x_orient by auto.
  destruct dbg; simpl; auto.
  destruct (D eq_refl) as (N1 & N2 & N3).
  unfold point_eq. rewrite !x_eq by auto.
  assert (G : forall x y x' y', (x, y) <> (x', y') -> negb ((x =? x') && (y =? y')) = true).
  { intros. apply negb_true_iff, andb_false_iff.
    destruct (Z.eqb_spec x x'); auto. destruct (Z.eqb_spec y y'); auto. subst; congruence. }
  rewrite !G by auto. reflexivity.
Qed.

Lemma in_circle_exact a b c d : finp a -> finp b -> finp c -> finp d ->
  in_circle a b c d = (0 <? incircle (zp a) (zp b) (zp c) (zp d)).
Proof.
  intros [? ?] [? ?] [? ?] [? ?]. unfold in_circle, incircle, zp; simpl.
  rewrite x_incircle by auto.
  destruct (Z.compare_spec (incircle_det (zv (px a)) (zv (py a)) (zv (px b)) (zv (py b)) (zv (px c)) (zv (py c)) (zv (px d)) (zv (py d))) 0);
    symmetry; [apply Z.ltb_ge|apply Z.ltb_ge|apply Z.ltb_lt]; lia.
Qed.

Lemma point_eq_exact a b : finp a -> finp b -> point_eq a b = true <-> zp a = zp b.
Proof.
  intros [? ?] [? ?]. unfold point_eq, zp. rewrite !x_eq by auto.
  rewrite andb_true_iff, !Z.eqb_eq. split; [intros [-> ->]; auto|intro Q; injection Q; auto].
Qed.

Lemma partial_cmp_exact a b : fin a -> fin b -> f_partial_cmp a b = Some (zv a ?= zv b).
Proof.
  intros. unfold f_partial_cmp. rewrite !x_lt, x_eq by auto.
  destruct (Z.compare_spec (zv a) (zv b)) as [Q|Q|Q].
  - rewrite Q, Z.ltb_irrefl, Z.eqb_refl. reflexivity.
  - rewrite (proj2 (Z.ltb_lt _ _) Q). reflexivity.
  - rewrite (proj2 (Z.ltb_ge _ _)) by lia. rewrite (proj2 (Z.ltb_lt _ _) Q). reflexivity.
Qed.

Definition zcmp (a b : zpt) : comparison :=
  match fst a ?= fst b with Eq => snd a ?= snd b | c => c end.

Lemma key_cmp_exact a b : finp a -> finp b -> key_cmp a b = zcmp (zp a) (zp b).
Proof.
  intros [? ?] [? ?]. unfold key_cmp, key_partial_cmp, zcmp, zp; simpl.
  rewrite !partial_cmp_exact by auto.
  destruct (zv (px a) ?= zv (px b)); reflexivity.
Qed.

Lemma zcmp_spec a b : CompareSpec (a = b) (xlt a b) (xlt b a) (zcmp a b).
Proof.
  destruct a as [x y], b as [x' y']. unfold zcmp, xlt; simpl.
  destruct (Z.compare_spec x x'); [destruct (Z.compare_spec y y')|..]; constructor; try lia.
  congruence.
Qed.

Lemma y_less_exact a b : finp a -> finp b -> y_less a b = true <-> ylt (zp a) (zp b).
Proof.
  intros [? ?] [? ?]. unfold y_less, ylt, zp; simpl. rewrite !x_lt, x_eq by auto.
  destruct (Z.ltb_spec (zv (py a)) (zv (py b))); [split; auto|].
  destruct (Z.eqb_spec (zv (py a)) (zv (py b))).
  - destruct (Z.ltb_spec (zv (px a)) (zv (px b))); split; auto; try discriminate; lia.
  - split; [discriminate|lia].
Qed.
End S.

Lemma xlt_trans a b c : xlt a b -> xlt b c -> xlt a c.
Proof. unfold xlt; lia. Qed.
Lemma xlt_irrefl a : ~ xlt a a.
Proof. unfold xlt; lia. Qed.
Lemma ylt_trans a b c : ylt a b -> ylt b c -> ylt a c.
Proof. unfold ylt; lia. Qed.
Lemma ylt_irrefl a : ~ ylt a a.
Proof. unfold ylt; lia. Qed.
Lemma ylt_total a b : ylt a b \/ a = b \/ ylt b a.
Proof.
  destruct a as [x y], b as [x' y']. unfold ylt; simpl.
  destruct (Z.lt_trichotomy y y') as [?|[->|?]]; [lia| |lia].
  destruct (Z.lt_trichotomy x x') as [?|[->|?]]; auto; lia.
Qed.
