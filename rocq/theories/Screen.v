(** * Screen: a point with another point up and to the left of it is never the first node of the front *)
From Coq Require Import List Arith Bool Lia ZArith Psatz.
From Verif Require Import Base Num Shape ShapeSpec Utils Points Triangles Front Sweeper Cdt F64 Lists Monad Exact
  Flood FrontSpec Geom Mesh Rotate Setup Legal Boundary Chain FrontInv Winding Cover CoverRun Cone Planar.
Import ListNotations.
Local Open Scope Z_scope.

(** a point of the triangle (q,x,y) near its corner q, in units 1/m *)
Definition near (m : Z) (q x y : zpt) : zpt := (m * fst q + (fst x + fst y - 2 * fst q), m * snd q + (snd x + snd y - 2 * snd q)).
Lemma near_inside m q x y : 2 < m -> 0 < orient q x y -> strictly_inside (scaled m q) (scaled m x) (scaled m y) (near m q x y).
Proof.
  intros M O. unfold strictly_inside.
  assert (F1 : orient (scaled m q) (scaled m x) (near m q x y) = m * orient q x y) by (unfold near, scaled; zpts; ring).
  assert (F2 : orient (scaled m x) (scaled m y) (near m q x y) = m * ((m - 2) * orient q x y)) by (unfold near, scaled; zpts; ring).
  assert (F3 : orient (scaled m y) (scaled m q) (near m q x y) = m * orient q x y) by (unfold near, scaled; zpts; ring).
  rewrite F1, F2, F3. split; [|split]; repeat apply Z.mul_pos_pos; lia.
Qed.
(** [orient a b] at the near point: the value at the corner, and a bounded change *)
Definition drift (a b q x y : zpt) : Z := (fst b - fst a) * (snd x + snd y - 2 * snd q) - (snd b - snd a) * (fst x + fst y - 2 * fst q).
Lemma near_orient m a b q x y : orient (scaled m a) (scaled m b) (near m q x y) = m * (m * orient a b q + drift a b q x y).
Proof. unfold near, scaled, drift. zpts. ring. Qed.
Lemma near_pos m a b q x y : 0 < m -> Z.abs (drift a b q x y) < m -> 0 < orient a b q -> 0 < orient (scaled m a) (scaled m b) (near m q x y).
Proof. intros M D O. rewrite near_orient. apply Z.mul_pos_pos; auto. assert (m * 1 <= m * orient a b q) by (apply Z.mul_le_mono_nonneg_l; lia). lia. Qed.
Lemma near_neg m a b q x y : 0 < m -> Z.abs (drift a b q x y) < m -> orient a b q < 0 -> orient (scaled m a) (scaled m b) (near m q x y) < 0.
Proof. intros M D O. rewrite near_orient. apply Z.mul_pos_neg; auto. assert (m * orient a b q <= m * -1) by (apply Z.mul_le_mono_nonneg_l; lia). lia. Qed.

Section S.
Context {A : Arith} {E : Exact A}.
Variable points : Points.
Hypothesis PP : proper points.
Notation N := (npts points).
Notation zc := (zc points).
Notation bnd := (boundary (ps_head points) (ps_tail points)).
Variables (ts : TriangleStore) (ns : list Entry).
Hypothesis M : mesh N zc ts.
Hypothesis C : chain points ns.
Hypothesis B : bnd ts ns [] [].
Notation n := (length ts).

(** no corner of a triangle is above an edge of the front *)
Lemma no_corner_above e0 e t k : adjacent ns e0 e -> (t < n)%nat -> fst (zc (en_pid e0)) < fst (zc (tv ts t k)) < fst (zc (en_pid e)) ->
  0 < orient (zc (en_pid e0)) (zc (en_pid e)) (zc (tv ts t k)) -> False.
Proof using PP M C B.
  intros AD L RX O. set (q := zc (tv ts t k)) in *. set (h := zc (en_pid e0)) in *. set (p := zc (en_pid e)) in *.
  pose proof (proj1 (tccw_at k) (m_ccw M t L)) as O3. unfold ccw3 in O3. fold q in O3.
  set (x := zc (tv ts t (nxt k))) in *. set (y := zc (tv ts t (prv k))) in *.
  set (s := 3 + Z.abs (drift h p q x y) + Z.abs (fst x + fst y - 2 * fst q)).
  assert (K : 0 < s) by (unfold s; lia). pose proof (near_inside s q x y ltac:(unfold s; lia) O3) as S1.
  assert (S2 : fst (scaled s h) <= fst (near s q x y) < fst (scaled s p)).
  { unfold scaled, near. cbn [fst]. assert (s * fst h <= s * (fst q - 1)) by (apply Z.mul_le_mono_nonneg_l; lia). assert (s * (fst q + 1) <= s * fst p) by (apply Z.mul_le_mono_nonneg_l; lia). unfold s in *. lia. }
  pose proof (near_pos s h p q x y K ltac:(unfold s; lia) O) as S3. set (w := near s q x y) in *.
  destruct (chain_vs points PP ns C) as (H1 & H2 & H3 & H4). pose proof (mesh_scaled _ _ _ _ K M) as M'. pose proof (monotone_scaled points s _ K H4) as H4'.
  assert (IN : inside (fun v => scaled s (zc v)) ts t w).
  { unfold strictly_inside in S1. apply (inside_rot ts (fun v => scaled s (zc v)) t k). unfold strictly_inside. fold q x y. tauto. }
  destruct (cover_only N _ ts _ _ ns [] M' B H1 H2 H3 H4' w t L IN) as (_ & _ & (v & v' & IV & SP & OV)).
  assert (IE : In (en_pid e0, en_pid e) (pairs (map en_pid ns))) by (apply adj_pairs; exists e0, e; auto).
  assert (Q : crosses (fun v => scaled s (zc v)) w (v, v') = crosses (fun v => scaled s (zc v)) w (en_pid e0, en_pid e)).
  { rewrite <- (cross_at (fun v => scaled s (zc v)) w _ v v' H4' IV SP). apply (cross_at (fun v => scaled s (zc v)) w _ _ _ H4' IE). exact S2. }
  unfold crosses, cr in Q. cbn [fst snd] in Q. unfold spans in SP. fold h p in Q.
  rewrite (proj2 (Z.leb_le _ _) (proj1 SP)), (proj2 (Z.ltb_lt _ _) (proj2 SP)), (proj2 (Z.leb_le _ _) (proj1 S2)), (proj2 (Z.ltb_lt _ _) (proj2 S2)) in Q. cbn [andb] in Q.
  destruct (Z.leb_spec 0 (orient (scaled s (zc v)) (scaled s (zc v')) w)); [lia|]. destruct (Z.leb_spec 0 (orient (scaled s h) (scaled s p) w)); lia.
Qed.

(** the node after head has no corner up and to the left of it *)
Theorem first_node_unscreened e0 e q : adjacent ns e0 e -> en_pid e0 = ps_head points -> (en_pid e < ps_head points)%nat -> (q < ps_head points)%nat ->
  (exists t k, (t < n)%nat /\ tv ts t k = q) -> fst (zc q) < fst (zc (en_pid e)) -> snd (zc (en_pid e)) <= snd (zc q) -> False.
Proof using PP M C B.
  intros AD HE Le Lq (t & k & L & V) X Y. destruct (pr_frame _ PP q Lq) as (F1 & F2 & F3). destruct (pr_frame _ PP (en_pid e) Le) as (G1 & G2 & G3).
  apply (no_corner_above e0 e t k AD L); rewrite V, HE; [lia|]. unfold orient, orient_det. nia.
Qed.
End S.
