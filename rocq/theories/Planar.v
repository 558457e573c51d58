(** * Planar: the edges of the mesh do not cross and no vertex lies inside a triangle *)
From Coq Require Import List Arith Bool Lia ZArith Psatz.
From Verif Require Import Base Num Shape ShapeSpec Utils Points Triangles Front Sweeper Cdt Lists Monad Exact
  FrontSpec Geom Mesh Rotate Setup Legal Legalize Boundary Chain Winding Cover CoverRun Cone.
Import ListNotations.
Local Open Scope Z_scope.

(** a point strictly inside (a,b,c) that is a corner of (x,y,z): the two have a common interior point *)
Lemma corner_point a b c x y z : strictly_inside a b c x -> 0 < orient x y z -> exists k p, 0 < k /\
  strictly_inside (scaled k a) (scaled k b) (scaled k c) p /\ strictly_inside (scaled k x) (scaled k y) (scaled k z) p.
Proof.
  intros (H1 & H2 & H3) H4.
  set (K := 1 + Z.abs (orient a b y + orient a b z) + Z.abs (orient b c y + orient b c z) + Z.abs (orient c a y + orient c a z)).
  exists (K + 2), (K * fst x + fst y + fst z, K * snd x + snd y + snd z). assert (HK : 0 < K) by lia. split; [lia|].
  assert (F : forall u v, orient (scaled (K + 2) u) (scaled (K + 2) v) (K * fst x + fst y + fst z, K * snd x + snd y + snd z) =
     (K + 2) * (K * orient u v x + (orient u v y + orient u v z))) by (intros u v; clearbody K; unfold scaled; zpts; ring).
  unfold strictly_inside. rewrite !F. clear F.
  rewrite (proj1 (proj2 (orient_diag x y))), (proj2 (proj2 (orient_diag x y))), (proj1 (proj2 (orient_diag y z))), (proj2 (proj2 (orient_diag y z))),
    (proj1 (proj2 (orient_diag z x))), (proj2 (proj2 (orient_diag z x))), (orient_rot x y z), (orient_rot' x y z).
  assert (G : forall o r, 0 < o -> Z.abs r < K -> 0 < K * o + r).
  { clear. intros o r H1 H2. assert (K <= K * o) by (rewrite <- (Z.mul_1_r K) at 1; apply Z.mul_le_mono_nonneg_l; lia). lia. }
  assert (P1 : 0 < K + 2) by lia. pose proof (Z.mul_pos_pos _ _ HK H4) as P2.
  split; [|]; (split; [|split]); apply Z.mul_pos_pos; auto; try (apply G; lia); lia.
Qed.

(** two triangles one of whose edges cross have a common interior point *)
Lemma cross_point x y z u v w : 0 < orient x y z -> 0 < orient u v w ->
  orient u v x < 0 -> 0 < orient u v y -> 0 < orient x y u -> orient x y v < 0 -> exists k p, 0 < k /\
  strictly_inside (scaled k x) (scaled k y) (scaled k z) p /\ strictly_inside (scaled k u) (scaled k v) (scaled k w) p.
Proof.
  intros Hz Hw H1 H2 H3 H4. set (o1 := - orient u v x). set (o2 := orient u v y). set (o3 := orient x y u). set (o4 := - orient x y v).
  assert (P1 : 0 < o1) by (unfold o1; lia). assert (P2 : 0 < o2) by auto. assert (P3 : 0 < o3) by auto. assert (P4 : 0 < o4) by (unfold o4; lia).
  set (dx := (fst y - fst x) - (fst v - fst u)). set (dy := (snd y - snd x) - (snd v - snd u)).
  set (cr := fun a b : zpt => (fst b - fst a) * dy - (snd b - snd a) * dx).
  set (K := 1 + Z.abs (cr y z) + Z.abs (cr z x) + Z.abs (cr v w) + Z.abs (cr w u)).
  set (k := K * (o1 + o2)). exists k, (K * (o2 * fst x + o1 * fst y) + dx, K * (o2 * snd x + o1 * snd y) + dy).
  assert (HK : 0 < K) by lia. assert (Hk : 0 < k) by (apply Z.mul_pos_pos; lia). split; auto.
  assert (F : forall a b, orient (scaled k a) (scaled k b) (K * (o2 * fst x + o1 * fst y) + dx, K * (o2 * snd x + o1 * snd y) + dy) =
     k * (K * (o2 * orient a b x + o1 * orient a b y) + cr a b)).
  { intros a b. unfold k, cr. clearbody K o1 o2 dx dy. unfold scaled. zpts. ring. }
  (* the crossing point on the other segment *)
  assert (S : o1 + o2 = o3 + o4) by (unfold o1, o2, o3, o4; clear; zpts; ring).
  assert (F2 : forall a b, o2 * orient a b x + o1 * orient a b y = o4 * orient a b u + o3 * orient a b v).
  { intros a b. unfold o1, o2, o3, o4. clear. zpts. ring. }
  assert (C1 : cr x y = o1 + o2) by (unfold cr, dx, dy, o1, o2; clear; zpts; ring).
  assert (C2 : cr u v = o1 + o2) by (unfold cr, dx, dy, o1, o2; clear; zpts; ring).
  assert (G : forall o r, 0 < o -> Z.abs r < K -> 0 < K * o + r).
  { clear. intros o r H1 H2. assert (K <= K * o) by (rewrite <- (Z.mul_1_r K) at 1; apply Z.mul_le_mono_nonneg_l; lia). lia. }
  assert (D : forall a b, orient a b a = 0 /\ orient a b b = 0) by (intros a b; split; apply orient_diag).
  unfold strictly_inside. rewrite !F. split; (split; [|split]); apply Z.mul_pos_pos; auto.
  - rewrite (proj1 (D x y)), (proj2 (D x y)), C1. lia.
  - rewrite (proj1 (D y z)), (orient_rot x y z), Z.mul_0_r, Z.add_0_r. apply G; [apply Z.mul_pos_pos; auto|lia].
  - rewrite (proj2 (D z x)), (orient_rot' x y z), Z.mul_0_r, Z.add_0_l. apply G; [apply Z.mul_pos_pos; auto|lia].
  - rewrite F2. rewrite (proj1 (D u v)), (proj2 (D u v)), C2. lia.
  - rewrite F2. rewrite (proj1 (D v w)), (orient_rot u v w), Z.mul_0_r, Z.add_0_r. apply G; [apply Z.mul_pos_pos; auto|lia].
  - rewrite F2. rewrite (proj2 (D w u)), (orient_rot' u v w), Z.mul_0_r, Z.add_0_l. apply G; [apply Z.mul_pos_pos; auto|lia].
Qed.

Lemma neg_signs a b : a * b < 0 -> (a < 0 /\ 0 < b) \/ (0 < a /\ b < 0).
Proof. intro H. destruct (Z_lt_le_dec a 0), (Z_lt_le_dec 0 b), (Z_lt_le_dec 0 a), (Z_lt_le_dec b 0); try lia; exfalso; try (assert (a = 0) by lia; subst; lia); try (assert (b = 0) by lia; subst; lia).
Qed.

Section S.
Context {A : Arith} {E : Exact A}.
Variable points : Points.
Hypothesis PP : proper points.
Notation N := (npts points).
Notation zc := (zc points).
Section Cb.
Variables (ts : TriangleStore) (af : AdvancingFront) (R0 : list tid).
Hypothesis M : mesh N zc ts.
Hypothesis FO : front_ok points af.
Hypothesis B : boundary (ps_head points) (ps_tail points) ts (nodes af) R0 [].

Lemma ccw_edge t i : (t < length ts)%nat -> 0 < orient (zc (tv ts t (nxt i))) (zc (tv ts t (prv i))) (zc (tv ts t i)).
Proof using M. intro L. pose proof (proj1 (tccw_at i) (m_ccw M t L)) as H. unfold ccw3 in H. rewrite orient_rot. exact H. Qed.

(** no vertex strictly inside a triangle *)
Lemma no_vertex_inside t i c k : (t < length ts)%nat -> (c < length ts)%nat ->
  strictly_inside (zc (tv ts t (nxt i))) (zc (tv ts t (prv i))) (zc (tv ts t i)) (zc (tv ts c k)) -> False.
Proof using PP M FO B.
  intros Lt_ Lc H. pose proof (ccw_edge c k Lc) as C. rewrite orient_rot in C.
  destruct (corner_point _ _ _ _ _ _ H C) as (s & p & K & S1 & S2).
  assert (t = c) as <-.
  { apply (once points PP ts af R0 M FO B s p); auto.
    - apply (inside_rot ts (fun v => scaled s (zc v)) t i). exact S1.
    - apply (inside_rot ts (fun v => scaled s (zc v)) c k). unfold strictly_inside in *. tauto. }
  destruct H as (H1 & H2 & H3).
  assert (D : forall a b, orient a b a = 0 /\ orient a b b = 0) by (intros a b; split; apply orient_diag).
  assert (Q : k = i \/ k = nxt i \/ k = prv i) by (destruct i, k; auto). destruct Q as [->|[->| ->]].
  - rewrite (proj2 (D _ _)) in H2. lia.
  - rewrite (proj1 (D _ _)) in H1. lia.
  - rewrite (proj2 (D _ _)) in H1. lia.
Qed.

(** two edges of the mesh do not cross *)
Lemma no_crossing P Q : (fst P < length ts)%nat -> (fst Q < length ts)%nat ->
  ~ pcross (zc (fst (pedge ts P))) (zc (snd (pedge ts P))) (zc (fst (pedge ts Q))) (zc (snd (pedge ts Q))).
Proof using PP M FO B.
  assert (W : forall P Q, (fst P < length ts)%nat -> (fst Q < length ts)%nat ->
    let x := zc (fst (pedge ts P)) in let y := zc (snd (pedge ts P)) in let u := zc (fst (pedge ts Q)) in let v := zc (snd (pedge ts Q)) in
    orient u v x < 0 -> 0 < orient u v y -> 0 < orient x y u -> orient x y v < 0 -> False).
  { clear P Q. intros [t i] [c k] LP LQ x y u v H1 H2 H3 H4. cbn [fst] in LP, LQ.
    destruct (cross_point x y (zc (tv ts t i)) u v (zc (tv ts c k)) (ccw_edge t i LP) (ccw_edge c k LQ) H1 H2 H3 H4) as (s & p & K & S1 & S2).
    assert (t = c) as <-.
    { apply (once points PP ts af R0 M FO B s p); auto.
      - apply (inside_rot ts (fun v => scaled s (zc v)) t i). exact S1.
      - apply (inside_rot ts (fun v => scaled s (zc v)) c k). exact S2. }
    unfold x, y, u, v, pedge in *. cbn [fst snd] in *.
    assert (D : forall a b, orient a b a = 0 /\ orient a b b = 0) by (intros a b; split; apply orient_diag).
    assert (Q : k = i \/ k = nxt i \/ k = prv i) by (destruct i, k; auto). destruct Q as [->|[->| ->]].
    - rewrite (proj1 (D _ _)) in H1. lia.
    - rewrite nxt_nxt, prv_nxt in *. rewrite (proj2 (D _ _)) in H3. lia.
    - rewrite nxt_prv, prv_prv in *. rewrite (proj1 (D _ _)) in H4. lia. }
  intros LP LQ [H1 H2]. set (x := zc (fst (pedge ts P))) in *. set (y := zc (snd (pedge ts P))) in *. set (u := zc (fst (pedge ts Q))) in *. set (v := zc (snd (pedge ts Q))) in *.
  assert (S : orient u v y - orient u v x = orient x y u - orient x y v) by (clearbody x y u v; clear; zpts; ring).
  assert (X : (orient u v x < 0 /\ 0 < orient u v y) \/ (0 < orient u v x /\ orient u v y < 0)) by (apply neg_signs; auto).
  assert (Y : (orient x y u < 0 /\ 0 < orient x y v) \/ (0 < orient x y u /\ orient x y v < 0)) by (apply neg_signs; auto).
  destruct X as [[X1 X2]|[X1 X2]], Y as [[Y1 Y2]|[Y1 Y2]]; try lia.
  - apply (W P Q LP LQ); auto.
  - apply (W Q P LQ LP); auto.
Qed.
End Cb.
End S.
