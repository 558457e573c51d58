(** * Delaunay: from locally to globally Delaunay

    The classical argument for constrained triangulations.  Let p be a point strictly inside a triangle t and v a
    vertex such that the segment from p to v crosses only sides that are locally Delaunay.  Then v is not
    strictly inside the circumcircle of t.  Proof: follow the segment through the triangles it crosses; if v is
    not inside the circle of the next triangle, it is not inside the circle of this one. *)
From Coq Require Import List Arith Bool Lia ZArith.
From Verif Require Import Base Num Shape ShapeSpec Utils Points Triangles F64 Exact Geom Mesh Rotate Winding CorTotal Cone.
Import ListNotations.
Local Open Scope Z_scope.

(** ** identities *)
Lemma lift_id a x y w v : incircle a x y v * orient w y x - incircle w y x v * orient a x y = - (incircle a x y w * orient x y v).
Proof. destruct a, x, y, w, v. unfold incircle, incircle_det, orient, orient_det. cbn [fst snd]. ring. Qed.
Lemma shift_id u w p v : orient u w v - orient u w p = orient p v u - orient p v w.
Proof. destruct u, w, p, v. zpts. ring. Qed.
(** Pluecker, in the two forms used *)
Lemma pl_id o a b c d : orient o a b * orient o c d - orient o a c * orient o b d + orient o a d * orient o b c = 0.
Proof. destruct o, a, b, c, d. zpts. ring. Qed.

Lemma id_s1 p x y w : orient y x w = orient x w p - orient x y p - orient y w p.
Proof. destruct p, x, y, w. zpts. ring. Qed.
Lemma id_s2 p x y w : orient y x w = orient x w p - orient x y p + orient w y p.
Proof. destruct p, x, y, w. zpts. ring. Qed.
Lemma id_swap12 x y v : orient y x v = - orient x y v.
Proof. destruct x, y, v. zpts. ring. Qed.
Lemma id_vup p v u : orient v u p = orient p v u.
Proof. destruct p, v, u. zpts. ring. Qed.
Lemma id_pyw p y w : orient p y w = - orient w y p.
Proof. destruct p, y, w. zpts. ring. Qed.
Lemma id_vay a y v : orient v a y = - orient y a v.
Proof. destruct a, y, v. zpts. ring. Qed.
Lemma id_fl p v x y w : orient x w p * (- orient x y v) - orient x y p * (- orient x w v) = (- orient p v x) * orient w y x.
Proof. destruct p, v, x, y, w. zpts. ring. Qed.
Lemma id_fr p v x y w : orient w y p * (- orient x y v) - orient x y p * (- orient w y v) = orient p v y * orient w y x.
Proof. destruct p, v, x, y, w. zpts. ring. Qed.
Lemma id_bary p v a x y : orient x y p * orient p v a + orient y a p * orient p v x + orient a x p * orient p v y = 0.
Proof. destruct p, v, a, x, y. zpts. ring. Qed.

Lemma pos_of_mul a b : 0 < a -> 0 < a * b -> 0 < b. Proof. intros H1 H2. apply (Z.mul_pos_cancel_l a b H1). exact H2. Qed.
Lemma nonpos_of_mul a b : 0 < b -> a * b <= 0 -> a <= 0. Proof. intros H1 H2. destruct (Z_lt_le_dec 0 a) as [H|H]; auto. pose proof (Z.mul_pos_pos a b H H1). lia. Qed.
Lemma mul_neg_neg a b : a < 0 -> b < 0 -> 0 < a * b. Proof. apply Z.mul_neg_neg. Qed.

(** ** one triangle: the ray from p towards v leaves through the side from x (right of it) to y (left of it) *)
Section Ray.
Variables p v : zpt.
Notation s u := (orient p v u).
(** the sides crossed, in the direction of the ray, and v still ahead *)
Definition ahead (x y : zpt) : Prop := s x < 0 /\ 0 < s y /\ 0 < orient x y p /\ orient x y v < 0.

(** v ahead of xy, triangle w y x beyond it, w on the left: the ray leaves through x w *)
Lemma exit_left x y w : ahead x y -> 0 < orient w y x -> 0 < s w -> orient x w v <> 0 -> ~ strictly_inside w y x v -> ahead x w.
Proof.
  intros (H1 & H2 & H3 & H4) C L NZ NI.
  assert (C' : 0 < orient y x w) by (rewrite orient_rot; exact C).
  split; [exact H1|]. split; [exact L|]. split.
  - (* b [xw] = c [xy] + a [yw], and [xw] - [yw] > [xy] *)
    pose proof (pl_id p v x y w) as Q.
    assert (E1 : orient p x y = orient x y p) by (apply eq_sym, orient_rot). assert (E2 : orient p x w = orient x w p) by (apply eq_sym, orient_rot). assert (E3 : orient p y w = orient y w p) by (apply eq_sym, orient_rot).
    assert (S : orient y x w = orient x w p - orient x y p - orient y w p) by apply id_s1.
    rewrite E1, E2, E3 in Q. set (a := s x) in *. set (b := s y) in *. set (c := s w) in *. set (f := orient x y p) in *. set (g := orient x w p) in *. set (h := orient y w p) in *.
    (* a h - b g + c f = 0 *)
    assert (T : (b - a) * g = (c - a) * f + (- a) * (g - f - h)) by lia.
    apply (pos_of_mul (b - a) g); [lia|]. rewrite T. assert (0 < (c - a) * f) by (apply Z.mul_pos_pos; lia). assert (0 < (- a) * (g - f - h)) by (apply Z.mul_pos_pos; lia). lia.
  - destruct (Z_lt_le_dec (orient x w v) 0) as [|G]; auto. exfalso. apply NI.
    assert (G' : 0 < orient x w v) by lia. split; [|split].
    + (* w y v *)
      pose proof (pl_id v x w y p) as Q.
      assert (E1 : orient v x w = orient x w v) by (apply eq_sym, orient_rot). assert (E2 : orient v x y = orient x y v) by (apply eq_sym, orient_rot). assert (E3 : orient v w y = orient w y v) by (apply eq_sym, orient_rot).
      assert (F : forall u, orient v u p = s u) by (intro u; apply id_vup). rewrite !F, E1, E2, E3 in Q.
      set (a := s x) in *. set (b := s y) in *. set (c := s w) in *. set (f := orient x y v) in *. set (g := orient x w v) in *.
      apply (pos_of_mul (- a)); [lia|]. assert (T : - a * orient w y v = g * b + (- f) * c) by lia. rewrite T.
      assert (0 < g * b) by (apply Z.mul_pos_pos; lia). assert (0 < (- f) * c) by (apply Z.mul_pos_pos; lia). lia.
    + assert (Q : orient y x v = - orient x y v) by apply id_swap12. lia.
    + exact G'.
Qed.
Lemma exit_right x y w : ahead x y -> 0 < orient w y x -> s w < 0 -> orient w y v <> 0 -> ~ strictly_inside w y x v -> ahead w y.
Proof.
  intros (H1 & H2 & H3 & H4) C L NZ NI.
  assert (C' : 0 < orient y x w) by (rewrite orient_rot; exact C).
  split; [exact L|]. split; [exact H2|]. split.
  - pose proof (pl_id p v x y w) as Q.
    assert (E1 : orient p x y = orient x y p) by (apply eq_sym, orient_rot). assert (E2 : orient p x w = orient x w p) by (apply eq_sym, orient_rot). assert (E3 : orient p y w = - orient w y p) by apply id_pyw.
    assert (S : orient y x w = orient x w p - orient x y p + orient w y p) by apply id_s2.
    rewrite E1, E2, E3 in Q. set (a := s x) in *. set (b := s y) in *. set (c := s w) in *. set (f := orient x y p) in *. set (g := orient x w p) in *. set (h := orient w y p) in *.
    (* - a h - b g + c f = 0 ; g - f + h > 0 *)
    assert (T : (b - a) * h = (b - c) * f + b * (g - f + h)) by lia.
    apply (pos_of_mul (b - a) h); [lia|]. rewrite T. assert (0 < (b - c) * f) by (apply Z.mul_pos_pos; lia). assert (0 < b * (g - f + h)) by (apply Z.mul_pos_pos; lia). lia.
  - destruct (Z_lt_le_dec (orient w y v) 0) as [|G]; auto. exfalso. apply NI.
    assert (G' : 0 < orient w y v) by lia. split; [exact G'|split].
    + assert (Q : orient y x v = - orient x y v) by apply id_swap12. lia.
    + pose proof (pl_id v x w y p) as Q.
      assert (E1 : orient v x w = orient x w v) by (apply eq_sym, orient_rot). assert (E2 : orient v x y = orient x y v) by (apply eq_sym, orient_rot). assert (E3 : orient v w y = orient w y v) by (apply eq_sym, orient_rot).
      assert (F : forall u, orient v u p = s u) by (intro u; apply id_vup). rewrite !F, E1, E2, E3 in Q.
      set (a := s x) in *. set (b := s y) in *. set (c := s w) in *. set (f := orient x y v) in *. set (g := orient w y v) in *.
      apply (pos_of_mul b); [lia|]. assert (T : b * orient x w v = (- f) * (- c) + (- a) * g) by lia. rewrite T.
      assert (0 < (- f) * (- c)) by (apply Z.mul_pos_pos; lia). assert (0 < (- a) * g) by (apply Z.mul_pos_pos; lia). lia.
Qed.
(** the start: p strictly inside the triangle a x y *)
Lemma exit_start a x y : strictly_inside a x y p -> s x < 0 -> 0 < s y -> s a <> 0 -> orient x y v <> 0 -> ~ strictly_inside a x y v -> ahead x y.
Proof.
  intros (P1 & P2 & P3) H1 H2 H0 NZ NI. split; [exact H1|]. split; [exact H2|]. split; [exact P2|].
  destruct (Z_lt_le_dec (orient x y v) 0) as [|G]; auto. exfalso. apply NI. assert (G' : 0 < orient x y v) by lia.
  pose proof (shift_id a x p v) as S1. pose proof (shift_id y a p v) as S2.
  pose proof (pl_id v a x y p) as Q.
  assert (E1 : orient v a x = orient a x v) by (apply eq_sym, orient_rot). assert (E2 : orient v x y = orient x y v) by (apply eq_sym, orient_rot). assert (E3 : orient v a y = - orient y a v) by apply id_vay.
  assert (F : forall u, orient v u p = s u) by (intro u; apply id_vup). rewrite !F, E1, E2, E3 in Q.
  set (sx := s x) in *. set (sy := s y) in *. set (sa := s a) in *.
  destruct (Z_lt_le_dec sa 0) as [La|La].
  - assert (Y : 0 < orient y a v) by lia. split; [|split]; auto.
    apply (pos_of_mul sy); [lia|]. assert (T : sy * orient a x v = (- sx) * orient y a v + (- sa) * orient x y v) by lia. rewrite T.
    assert (0 < (- sx) * orient y a v) by (apply Z.mul_pos_pos; lia). assert (0 < (- sa) * orient x y v) by (apply Z.mul_pos_pos; lia). lia.
  - assert (X : 0 < orient a x v) by lia. split; [|split]; auto.
    apply (pos_of_mul (- sx)); [lia|]. assert (T : - sx * orient y a v = sy * orient a x v + sa * orient x y v) by lia. rewrite T.
    assert (0 < sy * orient a x v) by (apply Z.mul_pos_pos; lia). assert (0 < sa * orient x y v) by (apply Z.mul_pos_pos; lia). lia.
Qed.
(** how far the ray has come: A / (A + B) *)
Definition farther (x y x' y' : zpt) : Prop := orient x y p * (- orient x' y' v) < orient x' y' p * (- orient x y v).
Lemma farther_left x y w : ahead x y -> 0 < orient w y x -> farther x y x w.
Proof.
  intros (H1 & H2 & H3 & H4) C. unfold farther.
  assert (Q : orient x w p * (- orient x y v) - orient x y p * (- orient x w v) = (- s x) * orient w y x) by apply id_fl.
  assert (0 < (- s x) * orient w y x) by (apply Z.mul_pos_pos; lia). lia.
Qed.
Lemma farther_right x y w : ahead x y -> 0 < orient w y x -> farther x y w y.
Proof.
  intros (H1 & H2 & H3 & H4) C. unfold farther.
  assert (Q : orient w y p * (- orient x y v) - orient x y p * (- orient w y v) = s y * orient w y x) by apply id_fr.
  assert (0 < s y * orient w y x) by (apply Z.mul_pos_pos; lia). lia.
Qed.
Lemma farther_irrefl x y : ~ farther x y x y. Proof. unfold farther. lia. Qed.
Lemma frac_trans a b c d e f : 0 < a -> 0 < b -> 0 < c -> 0 < d -> 0 < e -> 0 < f -> a * d < c * b -> c * f < e * d -> a * f < e * b.
Proof.
  intros. apply (Z.mul_lt_mono_pos_l d); [lia|].
  apply Z.lt_trans with (b * (c * f)).
  - replace (d * (a * f)) with ((a * d) * f) by ring. replace (b * (c * f)) with ((c * b) * f) by ring. apply Z.mul_lt_mono_pos_r; auto.
  - replace (d * (e * b)) with (b * (e * d)) by ring. apply Z.mul_lt_mono_pos_l; auto.
Qed.
Lemma farther_trans x y x' y' x'' y'' : ahead x y -> ahead x' y' -> ahead x'' y'' -> farther x y x' y' -> farther x' y' x'' y'' -> farther x y x'' y''.
Proof.
  intros (_ & _ & A1 & A2) (_ & _ & B1 & B2) (_ & _ & C1 & C2) F1 F2. unfold farther in *.
  apply (frac_trans (orient x y p) (- orient x y v) (orient x' y' p) (- orient x' y' v) (orient x'' y'' p) (- orient x'' y'' v)); lia.
Qed.
(** three signs that are not all equal change once from right to left *)
Lemma turn_sign a x y : strictly_inside a x y p -> s a <> 0 -> s x <> 0 -> s y <> 0 ->
  (s x < 0 /\ 0 < s y) \/ (s y < 0 /\ 0 < s a) \/ (s a < 0 /\ 0 < s x).
Proof.
  intros (P1 & P2 & P3) Na Nx Ny.
  assert (Q : orient x y p * s a + orient y a p * s x + orient a x p * s y = 0) by apply id_bary.
  destruct (Z_lt_le_dec (s a) 0) as [A1|A1], (Z_lt_le_dec (s x) 0) as [X1|X1], (Z_lt_le_dec (s y) 0) as [Y1|Y1]; try lia; exfalso.
  all: first [solve [assert (0 < orient x y p * (- s a)) by (apply Z.mul_pos_pos; lia); assert (0 < orient y a p * (- s x)) by (apply Z.mul_pos_pos; lia); assert (0 < orient a x p * (- s y)) by (apply Z.mul_pos_pos; lia); lia] | solve [assert (0 < orient x y p * s a) by (apply Z.mul_pos_pos; lia); assert (0 < orient y a p * s x) by (apply Z.mul_pos_pos; lia); assert (0 < orient a x p * s y) by (apply Z.mul_pos_pos; lia); lia]].
Qed.
End Ray.

(** ** the walk *)
Lemma not_v p' x : orient p' x x = 0. Proof. destruct p', x. zpts. ring. Qed.
Lemma incircle_vertex a b c : incircle a b c a = 0 /\ incircle a b c b = 0 /\ incircle a b c c = 0.
Proof. destruct a, b, c. unfold incircle, incircle_det. cbn [fst snd]. split; [|split]; ring. Qed.
Lemma ahead_dec p v x y : {ahead p v x y} + {~ ahead p v x y}.
Proof.
  unfold ahead. destruct (Z_lt_dec (orient p v x) 0), (Z_lt_dec 0 (orient p v y)), (Z_lt_dec 0 (orient x y p)), (Z_lt_dec (orient x y v) 0); (left; tauto) || (right; tauto).
Qed.
Lemma farther_dec p v x y x' y' : {farther p v x y x' y'} + {~ farther p v x y x' y'}.
Proof. unfold farther. apply Z_lt_dec. Qed.

Section Walk.
Variables (N : nat) (z : nat -> zpt) (ts : TriangleStore).
Hypothesis M : mesh N z ts.
Variable R : nat -> Prop.
Variables (p : zpt) (v : nat).
Notation X t i := (z (tv ts t (nxt i))).
Notation Y t i := (z (tv ts t (prv i))).
Notation ahd t i := (ahead p (z v) (X t i) (Y t i)).
Hypothesis RL : forall t, R t -> (t < length ts)%nat.
Hypothesis GEN : forall t i, R t -> tv ts t i <> v -> orient p (z v) (z (tv ts t i)) <> 0.
Hypothesis NCV : forall t i, R t -> tv ts t (nxt i) <> v -> tv ts t (prv i) <> v -> orient (X t i) (Y t i) (z v) <> 0.
Hypothesis NV : forall t i, R t -> ~ strictly_inside (z (tv ts t i)) (X t i) (Y t i) (z v).
Hypothesis STEP : forall t i, R t -> ahd t i -> exists u j, paired ts t i u j /\ R u /\ incircle (z (tv ts t i)) (X t i) (Y t i) (z (tv ts u j)) <= 0.

Definition rest (t : nat) (i : ix) : nat := length (filter (fun P : nat * ix => if ahead_dec p (z v) (X (fst P) (snd P)) (Y (fst P) (snd P)) then
  (if farther_dec p (z v) (X t i) (Y t i) (X (fst P) (snd P)) (Y (fst P) (snd P)) then true else false) else false) (list_prod (seq 0 (length ts)) [I0; I1; I2])).
Lemma rest_less t i u k : (u < length ts)%nat -> ahd t i -> ahd u k -> farther p (z v) (X t i) (Y t i) (X u k) (Y u k) -> (rest u k < rest t i)%nat.
Proof.
  intros Lu H1 H2 F. unfold rest. apply (filter_lt _ _ _ (u, k)).
  - intros [w l] _ H. cbn [fst snd] in *. destruct (ahead_dec p (z v) (X w l) (Y w l)) as [Q|Q]; [|discriminate].
    destruct (farther_dec p (z v) (X u k) (Y u k) (X w l) (Y w l)) as [Q'|Q']; [|discriminate].
    destruct (farther_dec p (z v) (X t i) (Y t i) (X w l) (Y w l)) as [|Q'']; auto. exfalso. apply Q''. exact (farther_trans p (z v) _ _ _ _ _ _ H1 H2 Q F Q').
  - apply in_prod; [apply in_seq; lia|]. destruct k; simpl; auto.
  - cbn [fst snd]. destruct (ahead_dec p (z v) (X u k) (Y u k)); auto. destruct (farther_dec p (z v) (X u k) (Y u k) (X u k) (Y u k)) as [Q|]; auto. destruct (farther_irrefl _ _ _ _ Q).
  - cbn [fst snd]. destruct (ahead_dec p (z v) (X u k) (Y u k)); [|contradiction]. destruct (farther_dec p (z v) (X t i) (Y t i) (X u k) (Y u k)); auto.
Qed.
Lemma ccw_at t i : R t -> 0 < orient (z (tv ts t i)) (X t i) (Y t i).
Proof. intro H. exact (proj1 (tccw_at i) (m_ccw M t (RL t H))). Qed.

Lemma walk : forall m t i, (rest t i < m)%nat -> R t -> ahd t i -> incircle (z (tv ts t i)) (X t i) (Y t i) (z v) <= 0.
Proof.
  induction m as [|m IH]; intros t i Lm Rt Ah; [lia|].
  destruct (STEP t i Rt Ah) as (u & j & PR & Ru & INC). pose proof PR as (_ & Lu & _ & _ & V1 & V2).
  pose proof (ccw_at u j Ru) as Cu. pose proof (ccw_at t i Rt) as Ct. rewrite <- V1, <- V2 in Cu.
  set (w := tv ts u j) in *. destruct (Nat.eq_dec w v) as [<-|Nv]; [exact INC|].
  assert (NXv : tv ts t (nxt i) <> v) by (intro Q; destruct Ah as (Q1 & _); rewrite Q, not_v in Q1; lia).
  assert (NYv : tv ts t (prv i) <> v) by (intro Q; destruct Ah as (_ & Q1 & _); rewrite Q, not_v in Q1; lia).
  assert (NI : ~ strictly_inside (z w) (Y t i) (X t i) (z v)) by (pose proof (NV u j Ru) as Q; rewrite <- V1, <- V2 in Q; exact Q).
  assert (K : incircle (z w) (Y t i) (X t i) (z v) <= 0 -> incircle (z (tv ts t i)) (X t i) (Y t i) (z v) <= 0).
  { intro H. pose proof (lift_id (z (tv ts t i)) (X t i) (Y t i) (z w) (z v)) as L. destruct Ah as (_ & _ & _ & A4).
    assert (0 <= incircle (z (tv ts t i)) (X t i) (Y t i) (z w) * orient (X t i) (Y t i) (z v)) by (apply Z.mul_nonpos_nonpos; lia).
    assert (incircle (z w) (Y t i) (X t i) (z v) * orient (z (tv ts t i)) (X t i) (Y t i) <= 0) by (apply Z.mul_nonpos_nonneg; lia).
    apply (nonpos_of_mul _ _ Cu). lia. }
  apply K. pose proof (GEN u j Ru Nv) as G. fold w in G.
  destruct (Z_lt_le_dec (orient p (z v) (z w)) 0) as [S|S].
  - (* w on the right: leave through w, Y *)
    assert (E1 : tv ts u (nxt (prv j)) = w) by (unfold w; destruct j; reflexivity). assert (E2 : tv ts u (prv (prv j)) = tv ts t (prv i)) by (rewrite V2; destruct j; reflexivity).
    assert (A' : ahead p (z v) (z w) (Y t i)).
    { apply (exit_right p (z v) (X t i) (Y t i) (z w)); auto. pose proof (NCV u (prv j) Ru) as Q. rewrite E1, E2 in Q. auto. }
    assert (Z1 : incircle (z (tv ts u (prv j))) (X u (prv j)) (Y u (prv j)) (z v) <= 0).
    { apply IH; auto; [|rewrite E1, E2; exact A']. apply Nat.lt_le_trans with (rest t i); [|lia]. apply rest_less; auto; rewrite E1, E2; auto. apply farther_right; auto. }
    rewrite E1, E2, <- V1 in Z1. rewrite <- incircle_rot in Z1. exact Z1.
  - assert (E1 : tv ts u (nxt (nxt j)) = tv ts t (nxt i)) by (rewrite V1; destruct j; reflexivity). assert (E2 : tv ts u (prv (nxt j)) = w) by (unfold w; destruct j; reflexivity).
    assert (A' : ahead p (z v) (X t i) (z w)).
    { apply (exit_left p (z v) (X t i) (Y t i) (z w)); auto; [lia|]. pose proof (NCV u (nxt j) Ru) as Q. rewrite E1, E2 in Q. auto. }
    assert (Z1 : incircle (z (tv ts u (nxt j))) (X u (nxt j)) (Y u (nxt j)) (z v) <= 0).
    { apply IH; auto; [|rewrite E1, E2; exact A']. apply Nat.lt_le_trans with (rest t i); [|lia]. apply rest_less; auto; rewrite E1, E2; auto. apply farther_left; auto. }
    rewrite E1, E2, <- V2 in Z1. rewrite incircle_rot in Z1. exact Z1.
Qed.

Theorem globally_delaunay t : R t -> strictly_inside (z (tv ts t I0)) (z (tv ts t I1)) (z (tv ts t I2)) p ->
  incircle (z (tv ts t I0)) (z (tv ts t I1)) (z (tv ts t I2)) (z v) <= 0.
Proof.
  intros Rt IN. destruct (incircle_vertex (z (tv ts t I0)) (z (tv ts t I1)) (z (tv ts t I2))) as (V0 & V1 & V2).
  destruct (Nat.eq_dec (tv ts t I0) v) as [Q0|Q0]; [rewrite <- Q0; lia|]. destruct (Nat.eq_dec (tv ts t I1) v) as [Q1|Q1]; [rewrite <- Q1; lia|]. destruct (Nat.eq_dec (tv ts t I2) v) as [Q2|Q2]; [rewrite <- Q2; lia|].
  pose proof (GEN t I0 Rt Q0) as G0. pose proof (GEN t I1 Rt Q1) as G1. pose proof (GEN t I2 Rt Q2) as G2.
  pose proof IN as (P1 & P2 & P3).
  destruct (turn_sign p (z v) _ _ _ IN G0 G1 G2) as [[S1 S2]|[[S1 S2]|[S1 S2]]].
  - apply (walk (S (rest t I0)) t I0); auto. apply (exit_start p (z v) (z (tv ts t I0))); auto.
  - pose proof (walk (S (rest t I1)) t I1) as W. cbn [nxt prv] in W. rewrite incircle_rot in W. apply W; auto.
    apply (exit_start p (z v) (z (tv ts t I1))); auto; first [solve [split; auto]|solve [apply (NCV t I1 Rt); auto]|apply (NV t I1 Rt)].
  - pose proof (walk (S (rest t I2)) t I2) as W. cbn [nxt prv] in W. rewrite <- incircle_rot in W. apply W; auto.
    apply (exit_start p (z v) (z (tv ts t I2))); auto; first [solve [split; auto]|solve [apply (NCV t I2 Rt); auto]|apply (NV t I2 Rt)].
Qed.
End Walk.
