(** * PropsNear: C57, near neighbours are joined by a side of the result *)
From Coq Require Import List Arith Bool Lia ZArith Permutation.
From Coq.Floats Require Import SpecFloat.
From Verif Require Import Base Num Shape ShapeSpec Utils Points Triangles Front Sweeper Cdt F64 Lists BuilderSpec History SortSpec Monad Traverse TraceSpec Grow
  Exact F64Exact FloatLaws Spec PropsBuilder PropsTrace PropsSafe FrontSpec Geom Mesh Setup Good Init Winding CoverRun Stokes Region PropsMesh PropsCover PropsMarks PropsRegion FillTotal Local PropsTotal PropsCup PropsTri F64Real IntSpec IntF64 IntRun IntHyp PropsInt PropsCdt PropsCdtInt PropsIntEx PropsCdtEx PropsOutcome CountAll PropsCount Unique PropsUnique Moved PropsMoved Turned PropsTurned.
Import ListNotations.
Local Open Scope Z_scope.

Definition plus (p q : zpt) : zpt := (fst p + fst q, snd p + snd q).
Definition dist2 (p q : zpt) : Z := (fst p - fst q) * (fst p - fst q) + (snd p - snd q) * (snd p - snd q).
(** x is outside the closed disc that has the segment from p to q as a diameter: the angle at x is acute *)
Definition beyond (p q x : zpt) : Prop := 0 < (fst x - fst p) * (fst x - fst q) + (snd x - snd p) * (snd x - snd q).
(** i and j see each other inside the region: the middle of the segment is in it, and no constrained edge stands between the middle and the ends *)
Definition see_each_other (z : nat -> zpt) (es : list (nat * nat)) (poly : list nat) (holes : list (list nat)) (i j : nat) : Prop :=
  in_region z poly holes 2 (plus (z i) (z j)) /\ visible z es i 2 (plus (z i) (z j)) /\ visible z es j 2 (plus (z i) (z j)).
(** the segment from i to j is a side of a triangle of the list *)
Definition joined (ids : list nat) (i j : nat) : Prop := exists t, In t (triples ids) /\ joins t i j.
Definition short_links_joined (n : nat) (z : nat -> zpt) (es : list (nat * nat)) (poly : list nat) (holes : list (list nat)) (ids : list nat) : Prop :=
  forall i j, (i < n)%nat -> (j < n)%nat -> i <> j -> see_each_other z es poly holes i j ->
    (forall v, (v < n)%nat -> v <> i -> v <> j -> beyond (z i) (z j) (z v)) -> joined ids i j.
(** j is a nearest point of i *)
Definition neighbours_joined (n : nat) (z : nat -> zpt) (es : list (nat * nat)) (poly : list nat) (holes : list (list nat)) (ids : list nat) : Prop :=
  forall i j, (i < n)%nat -> (j < n)%nat -> i <> j -> see_each_other z es poly holes i j ->
    (forall v, (v < n)%nat -> v <> i -> dist2 (z i) (z j) <= dist2 (z i) (z v)) -> joined ids i j.
(** any set of points: a shortest link from a point in it to a point not in it (the sides of a Euclidean minimum spanning tree are such links) *)
Definition bridges_joined (n : nat) (z : nat -> zpt) (es : list (nat * nat)) (poly : list nat) (holes : list (list nat)) (ids : list nat) : Prop :=
  forall (set : nat -> bool) i j, (i < n)%nat -> (j < n)%nat -> set i = true -> set j = false -> see_each_other z es poly holes i j ->
    (forall u v, (u < n)%nat -> (v < n)%nat -> set u = true -> set v = false -> dist2 (z i) (z j) <= dist2 (z u) (z v)) -> joined ids i j.

Lemma bound2 (f : nat -> nat -> Z) n : exists B, 0 <= B /\ forall u v, (u < n)%nat -> (v < n)%nat -> Z.abs (f u v) <= B.
Proof.
  assert (B1 : forall (g : nat -> Z) m, exists B, 0 <= B /\ forall v, (v < m)%nat -> Z.abs (g v) <= B).
  { intros g m. induction m as [|m (B & B0 & IH)]; [exists 0; split; [lia|intros; lia]|]. exists (Z.max B (Z.abs (g m))). split; [lia|].
    intros v Lv. destruct (Nat.eq_dec v m) as [->|N]; [lia|]. specialize (IH v ltac:(lia)). lia. }
  assert (H : forall m, exists B, 0 <= B /\ forall u v, (u < m)%nat -> (v < n)%nat -> Z.abs (f u v) <= B); [|apply (H n)].
  induction m as [|m (B & B0 & IH)]; [exists 0; split; [lia|intros; lia]|]. destruct (B1 (f m) n) as (C & C0 & HC). exists (Z.max B C). split; [lia|].
  intros u v Lu Lv. destruct (Nat.eq_dec u m) as [->|N]; [specialize (HC v Lv); lia|]. specialize (IH u v ltac:(lia) Lv). lia.
Qed.
(** close to a point of the closed triangle there is one strictly inside it, on the same side of every line that the first is not on *)
Lemma toward (w : nat -> zpt) n a b c r : inside_or_on a b c r -> 0 < orient a b c ->
  exists m q, 0 < m /\ strictly_inside (scaled m a) (scaled m b) (scaled m c) q /\ forall u v, (u < n)%nat -> (v < n)%nat ->
    (0 < orient r (w u) (w v) -> 0 < orient q (scaled m (w u)) (scaled m (w v))) /\ (orient r (w u) (w v) < 0 -> orient q (scaled m (w u)) (scaled m (w v)) < 0).
Proof.
  intros (Q1 & Q2 & Q3) O. set (g := (fst a + fst b + fst c, snd a + snd b + snd c)).
  assert (IG : strictly_inside (scaled 3 a) (scaled 3 b) (scaled 3 c) g).
  { unfold strictly_inside.
    assert (E1 : orient (scaled 3 a) (scaled 3 b) g = 3 * orient a b c) by (unfold g, scaled; zpts; ring).
    assert (E2 : orient (scaled 3 b) (scaled 3 c) g = 3 * orient a b c) by (unfold g, scaled; zpts; ring).
    assert (E3 : orient (scaled 3 c) (scaled 3 a) g = 3 * orient a b c) by (unfold g, scaled; zpts; ring).
    rewrite E1, E2, E3. lia. }
  set (r3 := scaled 3 r). assert (S9 : forall x y, orient (scaled 3 x) (scaled 3 y) r3 = 9 * orient x y r) by (intros; unfold r3; rewrite orient_scaled; ring).
  destruct (bound2 (fun u v => orient (scaled 3 (w u)) (scaled 3 (w v)) g) n) as (B & B0 & HB). set (M := B + 1). assert (M0 : 0 < M) by (unfold M; lia).
  exists ((M + 1) * 3), (mix M 1 r3 g). split; [lia|].
  assert (SS : forall x, scaled ((M + 1) * 3) x = scaled (M + 1) (scaled 3 x)) by (intro x; unfold scaled; cbn [fst snd]; f_equal; ring). rewrite !SS. split.
  - assert (SW : mix M 1 r3 g = mix 1 M g r3) by (unfold mix; f_equal; ring). rewrite SW, (Z.add_comm M 1). apply inside_mix; try lia; [exact IG|]. unfold inside_or_on. rewrite !S9. lia.
  - intros u v Lu Lv. rewrite !SS, <- !(orient_rot (mix M 1 r3 g)), <- !(orient_rot r), mix_orient, S9. specialize (HB u v Lu Lv). cbv beta in HB.
    set (x := orient (w u) (w v) r) in *. set (y := orient (scaled 3 (w u)) (scaled 3 (w v)) g) in *. clearbody x y.
    split; intro X.
    + apply Z.mul_pos_pos; [lia|]. assert (M * 1 <= M * (9 * x)) by (apply Z.mul_le_mono_nonneg_l; lia). unfold M in *. lia.
    + apply Z.mul_pos_neg; [lia|]. assert (M * (9 * x) <= M * (-1)) by (apply Z.mul_le_mono_nonneg_l; lia). unfold M in *. lia.
Qed.
Definition disc (p q x : zpt) : Z := (fst x - fst p) * (fst x - fst q) + (snd x - snd p) * (snd x - snd q).
Lemma disc_sum a b c p q x : orient b c x * disc p q a + orient c a x * disc p q b + orient a b x * disc p q c = orient a b c * disc p q x + incircle a b c x.
Proof. unfold disc. zpts. ring. Qed.
Lemma disc_end p q : disc p q p = 0 /\ disc p q q = 0.
Proof. unfold disc. split; ring. Qed.
Section Link.
Variables (n : nat) (z : nat -> zpt) (i j : nat).
Hypothesis GP : general_position n z.
Hypothesis Li : (i < n)%nat.
Hypothesis Lj : (j < n)%nat.
Hypothesis NE : i <> j.
Hypothesis FAR : forall v, (v < n)%nat -> v <> i -> v <> j -> beyond (z i) (z j) (z v).
Lemma link a b c : (a < n)%nat -> (b < n)%nat -> (c < n)%nat -> 0 < orient (z a) (z b) (z c) -> point_on z (a, b, c) 2 (plus (z i) (z j)) ->
  incircle (z a) (z b) (z c) (z i) <= 0 -> incircle (z a) (z b) (z c) (z j) <= 0 -> joins (a, b, c) i j.
Proof using All.
  intros La Lb Lc O ON IC1 IC2. destruct (ccw_ne z a b c O) as (N1 & N2 & N3).
  pose proof (disc_sum (z a) (z b) (z c) (z i) (z j) (z i)) as D1. pose proof (disc_sum (z a) (z b) (z c) (z i) (z j) (z j)) as D2.
  destruct (disc_end (z i) (z j)) as [E1 E2]. rewrite E1 in D1. rewrite E2 in D2.
  assert (H2 : forall u v, orient (scaled 2 u) (scaled 2 v) (plus (z i) (z j)) = 2 * (orient u v (z i) + orient u v (z j))) by (intros; unfold plus, scaled; generalize (z i) (z j); intros; zpts; ring).
  unfold point_on, inside_or_on in ON. rewrite !H2 in ON.
  assert (DZ : forall v, (v < n)%nat -> 0 <= disc (z i) (z j) (z v) /\ (v <> i -> v <> j -> 0 < disc (z i) (z j) (z v))).
  { intros v Lv. split; [|intros; apply (FAR v); auto]. destruct (Nat.eq_dec v i) as [->|Ni]; [rewrite E1; lia|]. destruct (Nat.eq_dec v j) as [->|Nj]; [rewrite E2; lia|]. pose proof (FAR v Lv Ni Nj) as X. unfold beyond in X. unfold disc. lia. }
  destruct (DZ a La) as [A0 A1], (DZ b Lb) as [B0 B1], (DZ c Lc) as [C0 C1].
  (* the sums of the three sides *)
  assert (SUM : forall x, orient (z b) (z c) x + orient (z c) (z a) x + orient (z a) (z b) x = orient (z a) (z b) (z c)) by (intro x; generalize (z a) (z b) (z c); intros; zpts; ring).
  pose proof (SUM (z i)) as S1. pose proof (SUM (z j)) as S2.
  assert (G0 : forall u v, (u < n)%nat -> (v < n)%nat -> u <> v -> (u = i \/ u = j) -> (v <> i) -> (v <> j) -> orient (z u) (z v) (z i) + orient (z u) (z v) (z j) <> 0 /\ orient (z v) (z u) (z i) + orient (z v) (z u) (z j) <> 0).
  { intros u v Lu Lv N U Vi Vj. assert (Z1 : forall x y, orient x y x = 0) by (intros; zpts; ring). assert (Z2 : forall x y, orient x y y = 0) by (intros; zpts; ring).
    destruct U as [->| ->]; rewrite Z1, Z2.
    - pose proof (GP i v j Li Lv Lj) as X. pose proof (GP v i j Lv Li Lj) as Y. split; rewrite Z.add_0_l; [apply X|apply Y]; auto.
    - pose proof (GP j v i Lj Lv Li) as X. pose proof (GP v j i Lv Lj Li) as Y. split; rewrite Z.add_0_r; [apply X|apply Y]; auto. }
  set (sa := orient (z b) (z c) (z i) + orient (z b) (z c) (z j)) in *. set (sb := orient (z c) (z a) (z i) + orient (z c) (z a) (z j)) in *. set (sc := orient (z a) (z b) (z i) + orient (z a) (z b) (z j)) in *.
  assert (T : sa * disc (z i) (z j) (z a) + sb * disc (z i) (z j) (z b) + sc * disc (z i) (z j) (z c) <= 0) by (unfold sa, sb, sc; lia).
  assert (SS : 0 < sa + sb + sc) by (unfold sa, sb, sc; lia).
  assert (P1 : 0 <= sa * disc (z i) (z j) (z a)) by (apply Z.mul_nonneg_nonneg; lia). assert (P2 : 0 <= sb * disc (z i) (z j) (z b)) by (apply Z.mul_nonneg_nonneg; lia). assert (P3 : 0 <= sc * disc (z i) (z j) (z c)) by (apply Z.mul_nonneg_nonneg; lia).
  assert (Qa : a <> i -> a <> j -> sa = 0) by (intros U V; specialize (A1 U V); assert (X : sa * disc (z i) (z j) (z a) = 0) by lia; apply Z.mul_eq_0 in X; lia).
  assert (Qb : b <> i -> b <> j -> sb = 0) by (intros U V; specialize (B1 U V); assert (X : sb * disc (z i) (z j) (z b) = 0) by lia; apply Z.mul_eq_0 in X; lia).
  assert (Qc : c <> i -> c <> j -> sc = 0) by (intros U V; specialize (C1 U V); assert (X : sc * disc (z i) (z j) (z c) = 0) by lia; apply Z.mul_eq_0 in X; lia).
  assert (K1 : (a = i \/ a = j) -> b <> i -> b <> j -> sc <> 0) by (intros U V W; apply (G0 a b); auto).
  assert (K2 : (b = i \/ b = j) -> a <> i -> a <> j -> sc <> 0) by (intros U V W; apply (G0 b a); auto).
  assert (K3 : (b = i \/ b = j) -> c <> i -> c <> j -> sa <> 0) by (intros U V W; apply (G0 b c); auto).
  assert (K4 : (c = i \/ c = j) -> b <> i -> b <> j -> sa <> 0) by (intros U V W; apply (G0 c b); auto).
  assert (K5 : (c = i \/ c = j) -> a <> i -> a <> j -> sb <> 0) by (intros U V W; apply (G0 c a); auto).
  assert (K6 : (a = i \/ a = j) -> c <> i -> c <> j -> sb <> 0) by (intros U V W; apply (G0 a c); auto).
  clearbody sa sb sc. clear - N1 N2 N3 NE SS Qa Qb Qc K1 K2 K3 K4 K5 K6. unfold joins, sides. cbn [In].
  assert (X : forall u, (u = i \/ u = j) \/ (u <> i /\ u <> j)) by (clear; intro u; lia).
  destruct (X a) as [Ia|[Oa Oa']]; destruct (X b) as [Ib|[Ob Ob']]; destruct (X c) as [Ic|[Oc Oc']].
  - exfalso. clear - N1 N2 N3 Ia Ib Ic. lia.
  - clear - N1 Ia Ib. destruct Ia as [->| ->], Ib as [->| ->]; try congruence; tauto.
  - clear - N3 Ia Ic. destruct Ia as [->| ->], Ic as [->| ->]; try congruence; tauto.
  - exfalso. exact (K6 Ia Oc Oc' (Qb Ob Ob')).
  - clear - N2 Ib Ic. destruct Ib as [->| ->], Ic as [->| ->]; try congruence; tauto.
  - exfalso. exact (K3 Ib Oc Oc' (Qa Oa Oa')).
  - exfalso. exact (K4 Ic Ob Ob' (Qa Oa Oa')).
  - exfalso. rewrite (Qa Oa Oa'), (Qb Ob Ob'), (Qc Oc Oc') in SS. clear - SS. lia.
Qed.
End Link.
Lemma mul_pos_cases a b : 0 < a * b -> (0 < a /\ 0 < b) \/ (a < 0 /\ b < 0).
Proof. intro H. destruct (Z.lt_trichotomy a 0) as [A|[->|A]]; [right|lia|left]; split; auto; [apply Z.nle_gt|apply Z.nle_gt]; intro B; [assert (a * b <= 0) by (apply Z.mul_nonpos_nonneg; lia)|assert (a * b <= 0) by (apply Z.mul_nonneg_nonpos; lia)]; lia. Qed.
(** what is seen from a point is seen from points close to it *)
Lemma seen_near (w : nat -> zpt) n m x y v r q : (x < n)%nat -> (y < n)%nat -> (v < n)%nat -> 0 < m ->
  (forall u v, (u < n)%nat -> (v < n)%nat -> (0 < orient r (w u) (w v) -> 0 < orient q (scaled m (w u)) (scaled m (w v))) /\ (orient r (w u) (w v) < 0 -> orient q (scaled m (w u)) (scaled m (w v)) < 0)) ->
  ~ touches (w x) (w y) r (w v) -> ~ touches (scaled m (w x)) (scaled m (w y)) q (scaled m (w v)).
Proof.
  intros Lx Ly Lv M0 K NT [T1 T2]. apply NT. rewrite orient_scaled in T1. assert (MM : 0 < m * m) by (apply Z.mul_pos_pos; auto).
  destruct (K x y Lx Ly) as [A1 A2]. destruct (K v x Lv Lx) as [B1 B2]. destruct (K v y Lv Ly) as [C1 C2]. split.
  - apply Z.nlt_ge. intro P. apply mul_pos_cases in P as [[P Q]|[P Q]]; rewrite <- orient_rot' in P; [apply A1 in P|apply A2 in P]; rewrite orient_rot' in P.
    + assert (0 < orient (scaled m (w x)) (scaled m (w y)) q * (m * m * orient (w x) (w y) (w v))) by (apply Z.mul_pos_pos; [exact P|apply Z.mul_pos_pos; auto]). lia.
    + assert (0 < orient (scaled m (w x)) (scaled m (w y)) q * (m * m * orient (w x) (w y) (w v))) by (apply Z.mul_neg_neg; [exact P|apply Z.mul_pos_neg; auto]). lia.
  - apply Z.nlt_ge. intro P. apply mul_pos_cases in P as [[P Q]|[P Q]].
    + assert (0 < orient q (scaled m (w v)) (scaled m (w x)) * orient q (scaled m (w v)) (scaled m (w y))) by (apply Z.mul_pos_pos; auto). lia.
    + assert (0 < orient q (scaled m (w v)) (scaled m (w x)) * orient q (scaled m (w v)) (scaled m (w y))) by (apply Z.mul_neg_neg; auto). lia.
Qed.
Lemma links_joined n z es poly holes ids : general_position n z -> (forall x y, In (x, y) es -> (x < n /\ y < n)%nat) -> proper_cdt n z es poly holes ids -> short_links_joined n z es poly holes ids.
Proof.
  intros GP RE ((_ & TC & _ & _ & CV & _) & CD & _) i j Li Lj NE ([W1 W2] & Vi & Vj) FAR.
  destruct (CV 2 _ ltac:(lia) W1 W2) as ([[a b] c] & It & ON). destruct (TC a b c It) as ((La & Lb & Lc) & O).
  exists (a, b, c). split; [exact It|].
  destruct (toward (fun v => scaled 2 (z v)) n (scaled 2 (z a)) (scaled 2 (z b)) (scaled 2 (z c)) (plus (z i) (z j)) ON (ccw_scaled 2 _ _ _ ltac:(lia) O)) as (m & q & M0 & IQ & K).
  rewrite !scaled_scaled in IQ.
  assert (VIS : forall v, (v < n)%nat -> visible z es v 2 (plus (z i) (z j)) -> visible z es v (m * 2) q).
  { intros v Lv V x y Ie Nx Ny. destruct (RE x y Ie) as [Lx Ly]. rewrite <- !scaled_scaled. exact (seen_near (fun v => scaled 2 (z v)) n m x y v _ q Lx Ly Lv M0 K (V x y Ie Nx Ny)). }
  apply (link n z i j GP Li Lj NE FAR a b c La Lb Lc O ON).
  - apply (CD a b c i (m * 2) q It Li); [lia|exact IQ|]. apply VIS; auto.
  - apply (CD a b c j (m * 2) q It Lj); [lia|exact IQ|]. apply VIS; auto.
Qed.
Lemma nearest_beyond p q x : x <> q -> dist2 p q <= dist2 p x -> beyond p q x.
Proof.
  intros N D. unfold beyond, dist2 in *. destruct p as [px py], q as [qx qy], x as [x y]. cbn [fst snd] in *.
  assert (P : 0 < (x - qx) * (x - qx) + (y - qy) * (y - qy)).
  { pose proof (Z.square_nonneg (x - qx)). pose proof (Z.square_nonneg (y - qy)). destruct (Z.eq_dec x qx) as [->|A].
    - destruct (Z.eq_dec y qy) as [->|B]; [congruence|]. assert (0 < (y - qy) * (y - qy)) by (destruct (Z_lt_le_dec (y - qy) 0); [apply Z.mul_neg_neg|apply Z.mul_pos_pos]; lia). lia.
    - assert (0 < (x - qx) * (x - qx)) by (destruct (Z_lt_le_dec (x - qx) 0); [apply Z.mul_neg_neg|apply Z.mul_pos_pos]; lia). lia. }
  assert (E : 2 * ((x - px) * (x - qx) + (y - py) * (y - qy)) = ((px - x) * (px - x) + (py - y) * (py - y)) - ((px - qx) * (px - qx) + (py - qy) * (py - qy)) + ((x - qx) * (x - qx) + (y - qy) * (y - qy))) by ring.
  lia.
Qed.
Lemma nearest_joined n z es poly holes ids : (forall u v, (u < n)%nat -> (v < n)%nat -> u <> v -> z u <> z v) -> short_links_joined n z es poly holes ids -> neighbours_joined n z es poly holes ids.
Proof. intros DI H i j Li Lj NE S D. apply H; auto. intros v Lv Ni Nj. apply nearest_beyond; [apply DI; auto|apply D; auto]. Qed.
Lemma dist2_sym p q : dist2 p q = dist2 q p. Proof. unfold dist2. ring. Qed.
Lemma beyond_sym p q x : beyond q p x -> beyond p q x.
Proof. unfold beyond. intro H. rewrite (Z.mul_comm (fst x - fst p)), (Z.mul_comm (snd x - snd p)). exact H. Qed.
Lemma shortest_joined n z es poly holes ids : (forall u v, (u < n)%nat -> (v < n)%nat -> u <> v -> z u <> z v) -> short_links_joined n z es poly holes ids -> bridges_joined n z es poly holes ids.
Proof.
  intros DI H set i j Li Lj Si Sj S D. assert (NE : i <> j) by (intros ->; congruence). apply H; auto. intros v Lv Ni Nj. destruct (set v) eqn:Sv.
  - apply beyond_sym, nearest_beyond; [apply DI; auto|]. rewrite (dist2_sym (z j) (z i)), (dist2_sym (z j) (z v)). apply D; auto.
  - apply nearest_beyond; [apply DI; auto|apply D; auto].
Qed.

(** ** C57: finished runs on any f64 coordinates *)
Theorem C57_f64_finished_runs : forall PD dbg fuel (src : @source F64 PD) calls (b : @Builder F64 PD) t cbs, good_run PD dbg fuel src calls b t cbs ->
  let zs := coords (c_points (build PD b)) (length (history_points PD src calls)) in
  exists ids, triangle_list_indices dbg PD t = Done ids /\
    short_links_joined (length zs) (zat zs) (history_edges PD src calls) (outer_contour PD src) (hole_contours PD src calls) ids /\
    bridges_joined (length zs) (zat zs) (history_edges PD src calls) (outer_contour PD src) (hole_contours PD src calls) ids /\ neighbours_joined (length zs) (zat zs) (history_edges PD src calls) (outer_contour PD src) (hole_contours PD src calls) ids.
Proof.
  intros PD dbg fuel src calls b t cbs G zs. destruct (good_run_cdt _ _ _ _ _ _ _ _ G) as (ids & T & GP & RG & C). exists ids. split; [exact T|]. fold zs in GP, RG, C.
  rewrite <- contours_edges. pose proof (links_joined _ _ _ _ _ _ GP (edges_range _ _ RG) C) as H. split; [exact H|].
  enough (DI : forall u v, (u < length zs)%nat -> (v < length zs)%nat -> u <> v -> zat zs u <> zat zs v) by (split; [apply shortest_joined|apply nearest_joined]; assumption).
  destruct G as (_ & _ & _ & _ & _ & L3 & _). specialize (L3 _ (or_introl eq_refl)). unfold outer_contour in L3 at 1. rewrite seq_length in L3.
  assert (L : forall v, (v < 3)%nat -> (v < length zs)%nat) by (intros v Lv; apply (RG (outer_contour PD src)); [left; reflexivity|]; unfold outer_contour; apply in_seq; lia).
  apply (distinct_points (length zs) (zat zs) GP 0 1 2); try (apply L; lia); lia.
Qed.

(** ** C57: integer inputs *)
Theorem C57_integer_inputs : forall PD (src : @source F64 PD) calls ue zs,
  unit_ok ue -> history_points PD src calls = map (grid ue) zs -> integer_input zs ->
  let es := history_edges PD src calls in
  edges_apart zs es -> (forall p q, In (p, q) es \/ In (q, p) es -> ~ capped zs p q) ->
  let poly := outer_contour PD src in let holes := hole_contours PD src calls in
  (forall c, In c (poly :: holes) -> (3 <= length c)%nat) -> holes_inside zs poly holes -> loose_points_allowed zs poly holes ->
  exists b, builder_of PD src calls = Done b /\
  forall dbg, exists t ids, (forall fuel, (steps (length zs) <= fuel)%nat -> triangulate dbg PD fuel (build PD b) = Done t) /\
    triangle_list_indices dbg PD t = Done ids /\ short_links_joined (length zs) (zat zs) es poly holes ids /\ bridges_joined (length zs) (zat zs) es poly holes ids /\ neighbours_joined (length zs) (zat zs) es poly holes ids.
Proof.
  intros PD src calls ue zs U HP IN es EA CU poly holes L3 HI LP.
  destruct (C28_integer_inputs_cdt_partial PD src calls ue zs U HP IN EA CU L3 HI LP) as (b & B & R). exists b. split; [exact B|]. intro dbg.
  destruct (R dbg) as (t & ids & T & X & C). exists t, ids. split; [exact T|]. split; [exact X|]. destruct (int_gp _ IN) as [DI GP].
  destruct (contours_range PD src calls) as [_ RG]. rewrite HP, map_length in RG.
  assert (H : short_links_joined (length zs) (zat zs) es poly holes ids) by (apply links_joined; [exact GP| |exact C]; intros x y; unfold es; rewrite <- contours_edges; apply edges_range; exact RG).
  split; [exact H|]. split; [apply shortest_joined|apply nearest_joined]; assumption.
Qed.
Theorem C57_polygon : forall zs, integer_input zs -> edges_apart zs (ring (length zs)) -> (forall p q, In (p, q) (ring (length zs)) \/ In (q, p) (ring (length zs)) -> ~ capped zs p q) ->
  forall dbg, exists ids, (forall fuel, (steps (length zs) <= fuel)%nat -> indices64 dbg fuel zs [] [] = Done ids) /\
    short_links_joined (length zs) (zat zs) (ring (length zs)) (seq 0 (length zs)) [] ids /\ bridges_joined (length zs) (zat zs) (ring (length zs)) (seq 0 (length zs)) [] ids /\ neighbours_joined (length zs) (zat zs) (ring (length zs)) (seq 0 (length zs)) [] ids.
Proof.
  intros zs IN EA CU dbg. destruct (C28_integer_polygon_cdt_partial zs IN EA CU dbg) as (ids & T & C). exists ids. split; [exact T|]. destruct (int_gp _ IN) as [DI GP].
  assert (H : short_links_joined (length zs) (zat zs) (ring (length zs)) (seq 0 (length zs)) [] ids).
  { apply links_joined; [exact GP| |exact C]. intros x y Ie. unfold ring in Ie. apply in_map_iff in Ie as (i & Q & Ie). injection Q as <- <-. apply in_seq in Ie. split; [lia|apply Nat.mod_upper_bound; lia]. }
  split; [exact H|]. split; [apply shortest_joined|apply nearest_joined]; assumption.
Qed.
Theorem C57_convex_polygon : forall zs, integer_input zs -> convex_polygon zs ->
  forall dbg, exists ids, (forall fuel, (steps (length zs) <= fuel)%nat -> indices64 dbg fuel zs [] [] = Done ids) /\
    short_links_joined (length zs) (zat zs) (ring (length zs)) (seq 0 (length zs)) [] ids /\ bridges_joined (length zs) (zat zs) (ring (length zs)) (seq 0 (length zs)) [] ids /\ neighbours_joined (length zs) (zat zs) (ring (length zs)) (seq 0 (length zs)) [] ids.
Proof. intros zs IN C dbg. destruct (convex_no_cap zs IN C) as [EA CU]. apply C57_polygon; assumption. Qed.

(** two corners of the star that see each other, neither next to the other on the boundary *)
Example star_link : integer_input star /\ see_each_other (zat star) (ring 8) (seq 0 8) [] 7 1 /\ (forall v, (v < 8)%nat -> v <> 7%nat -> v <> 1%nat -> beyond (zat star 7) (zat star 1) (zat star v)) /\
  forall dbg, exists ids, (forall fuel, (steps 8 <= fuel)%nat -> indices64 dbg fuel star [] [] = Done ids) /\ joined ids 7 1.
Proof.
  destruct star_ok as (H1 & H2 & H3 & _).
  assert (SE : see_each_other (zat star) (ring 8) (seq 0 8) [] 7 1).
  { split; [split; [vm_compute; discriminate|intros h []]|]. split; apply visibleb_ok; vm_compute; reflexivity. }
  assert (FAR : forall v, (v < 8)%nat -> v <> 7%nat -> v <> 1%nat -> beyond (zat star 7) (zat star 1) (zat star v)).
  { intros v Lv N7 N1. assert (v = 0 \/ v = 2 \/ v = 3 \/ v = 4 \/ v = 5 \/ v = 6)%nat as [->|[->|[->|[->|[->| ->]]]]] by lia; vm_compute; reflexivity. }
  split; [exact H1|]. split; [exact SE|]. split; [exact FAR|]. intro dbg. destruct (C57_polygon star H1 H2 H3 dbg) as (ids & T & S & _). exists ids. split; [exact T|].
  apply (S 7%nat 1%nat); [cbn; lia|cbn; lia|discriminate|exact SE|]. intros v Lv. apply FAR. exact Lv.
Qed.
(** a hole, and a Steiner point whose nearest point it can see *)
Example annulus_neighbours : see_each_other (zat annulus) [(0,1);(1,2);(2,0);(3,4);(4,5);(5,3)]%nat [0;1;2]%nat [[3;4;5]]%nat 6 5 /\
  (forall v, (v < 7)%nat -> v <> 6%nat -> dist2 (zat annulus 6) (zat annulus 5) <= dist2 (zat annulus 6) (zat annulus v)) /\
  exists b, builder_of unit hole_src hole_calls = Done b /\ forall dbg, exists t ids, (forall fuel, (steps 7 <= fuel)%nat -> triangulate dbg unit fuel (build unit b) = Done t) /\
    triangle_list_indices dbg unit t = Done ids /\ joined ids 6 5.
Proof.
  destruct annulus_ok as (H1 & H2 & H3 & H4 & H5 & H6 & H7).
  assert (SE : see_each_other (zat annulus) [(0,1);(1,2);(2,0);(3,4);(4,5);(5,3)]%nat [0;1;2]%nat [[3;4;5]]%nat 6 5).
  { split; [split; [vm_compute; discriminate|intros h [<-|[]]; vm_compute; reflexivity]|]. split; apply visibleb_ok; vm_compute; reflexivity. }
  assert (ND : forall v, (v < 7)%nat -> v <> 6%nat -> dist2 (zat annulus 6) (zat annulus 5) <= dist2 (zat annulus 6) (zat annulus v)).
  { intros v Lv N. assert (v = 0 \/ v = 1 \/ v = 2 \/ v = 3 \/ v = 4 \/ v = 5)%nat as [->|[->|[->|[->|[->| ->]]]]] by lia; vm_compute; discriminate. }
  split; [exact SE|]. split; [exact ND|].
  destruct (C57_integer_inputs unit hole_src hole_calls 0%Z annulus unit_0 H1 H2 H3 H4 H5 H6 H7) as (b & B & R). exists b. split; [exact B|]. intro dbg. destruct (R dbg) as (t & ids & T & X & _ & _ & NB).
  exists t, ids. split; [exact T|]. split; [exact X|]. apply (NB 6%nat 5%nat); [cbn; lia|cbn; lia|discriminate|exact SE|exact ND].
Qed.
Print Assumptions C57_f64_finished_runs.
Print Assumptions C57_integer_inputs.
Print Assumptions C57_polygon.
Print Assumptions C57_convex_polygon.
