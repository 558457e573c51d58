(** * PropsTurned: C54, turning, mirroring and enlarging the input turns, mirrors and enlarges the result *)
From Coq Require Import List Arith Bool Lia ZArith Permutation.
From Coq.Floats Require Import SpecFloat.
From Verif Require Import Base Num Shape ShapeSpec Utils Points Triangles Front Sweeper Cdt F64 Lists BuilderSpec History SortSpec Monad Traverse TraceSpec Grow
  Exact F64Exact FloatLaws Spec PropsBuilder PropsTrace PropsSafe FrontSpec Geom Mesh Setup Good Init Winding CoverRun Stokes Region PropsMesh PropsCover PropsMarks PropsRegion FillTotal Local PropsTotal PropsCup PropsTri F64Real IntSpec IntF64 IntRun IntHyp PropsInt PropsCdt PropsCdtInt PropsIntEx PropsCdtEx PropsOutcome CountAll PropsCount Unique PropsUnique Moved PropsMoved Turned.
Import ListNotations.
Local Open Scope nat_scope.

(** the triple, or one of its rotations, is listed *)
Definition listed (t : nat * nat * nat) (ids : list nat) : Prop := let '(a, b, c) := t in In (a, b, c) (triples ids) \/ In (b, c, a) (triples ids) \/ In (c, a, b) (triples ids).
(** the same triangles by the indices of their corners; if the input is mirrored, each the other way round *)
Definition same_indices_turned (m : bool) (ids1 ids2 : list nat) : Prop :=
  (forall t, In t (triples ids1) -> listed (flipped m t) ids2) /\ (forall t, In t (triples ids2) -> listed (flipped m t) ids1).
Lemma not_mirrored ids1 ids2 : same_indices_turned false ids1 ids2 <-> same_indices ids1 ids2.
Proof.
  unfold same_indices_turned, same_indices, listed, flipped. split; intros [A B]; (split; [intros a b c H; first [exact (A (a, b, c) H)|exact (B (a, b, c) H)]| intros a b c H; exact (B (a, b, c) H)]) || (split; intros [[a b] c] H; auto).
Qed.

Lemma turned_lists n zs1 zs2 poly holes ids1 ids2 m al be K t : (al <> 0 \/ be <> 0)%Z -> (0 < K)%Z -> n = length zs1 -> map (scaled K) zs2 = map (turned m al be t) zs1 ->
  general_position n (zat zs1) -> no_four_cocircular n (zat zs1) -> (forall c v, In c (poly :: holes) -> In v c -> v < n) ->
  proper_cdt n (zat zs1) (flat_map Stokes.cyc (poly :: holes)) poly holes ids1 -> proper_cdt n (zat zs2) (flat_map Stokes.cyc (poly :: holes)) poly holes ids2 ->
  same_indices_turned m ids1 ids2.
Proof.
  intros NZ KP -> E GP NC RG C1 C2.
  assert (LE : length zs2 = length zs1) by (pose proof (f_equal (@length _) E) as Q; rewrite !map_length in Q; exact Q).
  apply proper_good in C1, C2. apply (turn_back (length zs1) (zat zs1) (zat zs2) poly holes m al be K t (triples ids2) NZ KP) in C2; auto.
  2: { intros v Lv. rewrite <- (zat_map (scaled K)), E by (rewrite LE; exact Lv). apply zat_map. exact Lv. }
  pose proof (unique_tris (length zs1) (zat zs1) poly holes GP NC RG _ _ C1 C2) as X. pose proof (unique_tris (length zs1) (zat zs1) poly holes GP NC RG _ _ C2 C1) as Y.
  assert (IM : forall a b c l, In (a, b, c) (map (flipped m) l) -> In (flipped m (a, b, c)) l).
  { intros a b c l I'. apply in_map_iff in I' as ([[x y] w] & Q & I'). unfold flipped in *. destruct m; injection Q as <- <- <-; exact I'. }
  split.
  - intros [[a b] c] I'. specialize (X a b c I'). unfold listed. destruct X as [X|[X|X]]; apply IM in X; unfold flipped in *; destruct m; auto.
  - intros [[a b] c] I'. pose proof (in_map (flipped m) _ _ I') as I2. unfold flipped in I2 |- *. unfold listed. destruct m; exact (Y _ _ _ I2).
Qed.

(** ** C54: finished runs on any f64 coordinates *)
(** two finished runs without inverted triangles on two inputs with the same polygons, the points of the second being
    those of the first turned by (al + be*i) / K, mirrored first if m, and shifted *)
Theorem C54_f64_finished_runs : forall PD1 PD2 dbg1 dbg2 fuel1 fuel2 (src1 : @source F64 PD1) calls1 (b1 : @Builder F64 PD1) t1 cbs1 (src2 : @source F64 PD2) calls2 (b2 : @Builder F64 PD2) t2 cbs2 m al be K t,
  good_run PD1 dbg1 fuel1 src1 calls1 b1 t1 cbs1 -> good_run PD2 dbg2 fuel2 src2 calls2 b2 t2 cbs2 ->
  outer_contour PD2 src2 = outer_contour PD1 src1 -> hole_contours PD2 src2 calls2 = hole_contours PD1 src1 calls1 ->
  let zs1 := coords (c_points (build PD1 b1)) (length (history_points PD1 src1 calls1)) in let zs2 := coords (c_points (build PD2 b2)) (length (history_points PD2 src2 calls2)) in
  (al <> 0 \/ be <> 0)%Z -> (0 < K)%Z -> map (scaled K) zs2 = map (turned m al be t) zs1 -> no_four_cocircular (length zs1) (zat zs1) ->
  exists ids1 ids2, triangle_list_indices dbg1 PD1 t1 = Done ids1 /\ triangle_list_indices dbg2 PD2 t2 = Done ids2 /\ same_indices_turned m ids1 ids2.
Proof.
  intros PD1 PD2 dbg1 dbg2 fuel1 fuel2 src1 calls1 b1 t1 cbs1 src2 calls2 b2 t2 cbs2 m al be K t G1 G2 EP EH zs1 zs2 NZ KP E NC.
  destruct (good_run_cdt _ _ _ _ _ _ _ _ G1) as (ids1 & T1 & P1 & R1 & C1). destruct (good_run_cdt _ _ _ _ _ _ _ _ G2) as (ids2 & T2 & P2 & R2 & C2).
  exists ids1, ids2. split; [exact T1|]. split; [exact T2|].
  assert (LE : length zs2 = length zs1) by (pose proof (f_equal (@length _) E) as Q; rewrite !map_length in Q; exact Q).
  fold zs1 in P1, R1, C1. fold zs2 in C2. rewrite EP, EH, LE in C2.
  exact (turned_lists _ zs1 zs2 _ _ ids1 ids2 m al be K t NZ KP eq_refl E P1 NC R1 C1 C2).
Qed.

(** turning keeps edges apart *)
Lemma turned_orient zs1 zs2 m al be K t : map (scaled K) zs2 = map (turned m al be t) zs1 -> forall i j k, i < length zs1 -> j < length zs1 -> k < length zs1 ->
  (K * K * orient (zat zs2 i) (zat zs2 j) (zat zs2 k) = sgn m * ((al * al + be * be) * orient (zat zs1 i) (zat zs1 j) (zat zs1 k)))%Z.
Proof.
  intro E. assert (LE : length zs2 = length zs1) by (pose proof (f_equal (@length _) E) as Q; rewrite !map_length in Q; exact Q).
  assert (ZM : forall v, v < length zs1 -> scaled K (zat zs2 v) = turned m al be t (zat zs1 v)).
  { intros v Lv. rewrite <- (zat_map (scaled K)), E by (rewrite LE; exact Lv). apply zat_map. exact Lv. }
  intros i j k Li Lj Lk. rewrite <- orient_scaled, !ZM by assumption. apply orient_turned.
Qed.
Lemma turned_apart zs1 zs2 es m al be K t : (al <> 0 \/ be <> 0)%Z -> (0 < K)%Z -> map (scaled K) zs2 = map (turned m al be t) zs1 ->
  (forall x y, In (x, y) es -> x < length zs1 /\ y < length zs1) -> edges_apart zs1 es -> edges_apart zs2 es.
Proof.
  intros NZ KP E RE EA.
  intros [x y] [u w] J1 J2. cbn [fst snd]. destruct (RE x y J1) as [Lx Ly], (RE u w J2) as [Lu Lw]. pose proof (EA (x, y) (u, w) J1 J2) as Q. cbn [fst snd] in Q. intros [A B]. apply Q. clear Q.
    assert (X : forall a b c d e f, a < length zs1 -> b < length zs1 -> c < length zs1 -> d < length zs1 -> e < length zs1 -> f < length zs1 ->
      (orient (zat zs2 a) (zat zs2 b) (zat zs2 c) * orient (zat zs2 d) (zat zs2 e) (zat zs2 f) < 0 -> orient (zat zs1 a) (zat zs1 b) (zat zs1 c) * orient (zat zs1 d) (zat zs1 e) (zat zs1 f) < 0)%Z).
    { intros a b c d e f La Lb Lc Ld Le Lf Q.
      assert (OE : forall i j k, i < length zs1 -> j < length zs1 -> k < length zs1 -> (K * K * orient (zat zs2 i) (zat zs2 j) (zat zs2 k) = sgn m * ((al * al + be * be) * orient (zat zs1 i) (zat zs1 j) (zat zs1 k)))%Z).
      { exact (turned_orient zs1 zs2 m al be K t E). }
      pose proof (OE a b c La Lb Lc) as Q1. pose proof (OE d e f Ld Le Lf) as Q2. pose proof (turn_pos al be NZ) as DP. revert Q Q1 Q2 DP KP.
      generalize (orient (zat zs2 a) (zat zs2 b) (zat zs2 c)) (orient (zat zs2 d) (zat zs2 e) (zat zs2 f)) (orient (zat zs1 a) (zat zs1 b) (zat zs1 c)) (orient (zat zs1 d) (zat zs1 e) (zat zs1 f)) (al * al + be * be)%Z. clear. intros o1 o2 p1 p2 D Q Q1 Q2 DP KP.
      assert (KK : (0 < K * K)%Z) by (apply Z.mul_pos_pos; assumption). revert Q1 Q2 KK. generalize (K * K)%Z. clear K KP. intros K Q1 Q2 KP.
      assert (H : (D * D * (p1 * p2) = K * K * (o1 * o2))%Z) by (transitivity ((K * o1) * (K * o2))%Z; [rewrite Q1, Q2; unfold sgn; destruct m; ring|ring]).
      assert (0 < K * K)%Z by (apply Z.mul_pos_pos; assumption). assert (0 < D * D)%Z by (apply Z.mul_pos_pos; assumption).
      destruct (Z_lt_le_dec (p1 * p2) 0) as [|G]; [assumption|]. assert (0 <= D * D * (p1 * p2))%Z by (apply Z.mul_nonneg_nonneg; lia). assert (K * K * (o1 * o2) < 0)%Z by (apply Z.mul_pos_neg; assumption). lia. }
    split; [exact (X _ _ _ _ _ _ Lx Ly Lu Lx Ly Lw A)|exact (X _ _ _ _ _ _ Lu Lw Lx Lu Lw Ly B)].
Qed.

(** ** C54: integer inputs without a cap, before and after *)
Theorem C54_turned : forall PD1 PD2 (src1 : @source F64 PD1) calls1 zs1 (src2 : @source F64 PD2) calls2 zs2 ue1 ue2 m al be K t,
  unit_ok ue1 -> history_points PD1 src1 calls1 = map (grid ue1) zs1 -> integer_input zs1 -> unit_ok ue2 -> history_points PD2 src2 calls2 = map (grid ue2) zs2 -> integer_input zs2 ->
  (al <> 0 \/ be <> 0)%Z -> (0 < K)%Z -> map (scaled K) zs2 = map (turned m al be t) zs1 -> no_four_cocircular (length zs1) (zat zs1) ->
  outer_contour PD2 src2 = outer_contour PD1 src1 -> hole_contours PD2 src2 calls2 = hole_contours PD1 src1 calls1 ->
  (forall c, In c (outer_contour PD1 src1 :: hole_contours PD1 src1 calls1) -> 3 <= length c) -> edges_apart zs1 (history_edges PD1 src1 calls1) ->
  (forall p q, In (p, q) (history_edges PD1 src1 calls1) \/ In (q, p) (history_edges PD1 src1 calls1) -> ~ capped zs1 p q /\ ~ capped zs2 p q) ->
  holes_inside zs1 (outer_contour PD1 src1) (hole_contours PD1 src1 calls1) -> loose_points_allowed zs1 (outer_contour PD1 src1) (hole_contours PD1 src1 calls1) ->
  holes_inside zs2 (outer_contour PD2 src2) (hole_contours PD2 src2 calls2) -> loose_points_allowed zs2 (outer_contour PD2 src2) (hole_contours PD2 src2 calls2) ->
  exists b1 b2, builder_of PD1 src1 calls1 = Done b1 /\ builder_of PD2 src2 calls2 = Done b2 /\
  forall dbg1 dbg2, exists t1 t2 ids1 ids2,
    (forall fuel, steps (length zs1) <= fuel -> triangulate dbg1 PD1 fuel (build PD1 b1) = Done t1) /\ triangle_list_indices dbg1 PD1 t1 = Done ids1 /\
    (forall fuel, steps (length zs1) <= fuel -> triangulate dbg2 PD2 fuel (build PD2 b2) = Done t2) /\ triangle_list_indices dbg2 PD2 t2 = Done ids2 /\
    same_indices_turned m ids1 ids2.
Proof.
  intros PD1 PD2 src1 calls1 zs1 src2 calls2 zs2 ue1 ue2 m al be K t U1 HP1 IN1 U2 HP2 IN2 NZ KP E NC EP EH L3 EA CU HI1 LP1 HI2 LP2.
  assert (LE : length zs2 = length zs1) by (pose proof (f_equal (@length _) E) as Q; rewrite !map_length in Q; exact Q).
  destruct (contours_range PD1 src1 calls1) as [ND RG]. rewrite HP1, map_length in RG.
  assert (EE : history_edges PD2 src2 calls2 = history_edges PD1 src1 calls1) by (rewrite <- !contours_edges, EP, EH; reflexivity).
  assert (RE : forall x y, In (x, y) (history_edges PD1 src1 calls1) -> x < length zs1 /\ y < length zs1) by (intros x y; rewrite <- contours_edges; apply edges_range; exact RG).
  pose proof (turned_apart zs1 zs2 (history_edges PD1 src1 calls1) m al be K t NZ KP E RE EA) as EA2.
  destruct (C28_integer_inputs_cdt_partial PD1 src1 calls1 ue1 zs1 U1 HP1 IN1 EA (fun p q H => proj1 (CU p q H)) L3 HI1 LP1) as (b1 & B1 & R1).
  destruct (C28_integer_inputs_cdt_partial PD2 src2 calls2 ue2 zs2 U2 HP2 IN2) as (b2 & B2 & R2); auto.
  - rewrite EE. exact EA2.
  - rewrite EE. intros p q H. exact (proj2 (CU p q H)).
  - rewrite EP, EH. exact L3.
  - exists b1, b2. split; [exact B1|]. split; [exact B2|]. intros dbg1 dbg2. destruct (R1 dbg1) as (t1 & ids1 & T1 & X1 & C1). destruct (R2 dbg2) as (t2 & ids2 & T2 & X2 & C2).
    exists t1, t2, ids1, ids2. split; [exact T1|]. split; [exact X1|]. split; [intro fuel; rewrite <- LE; apply T2|]. split; [exact X2|].
    rewrite EE, EP, EH, LE in C2. rewrite <- contours_edges in C1, C2. destruct (int_gp zs1 IN1) as [_ GP].
    exact (turned_lists _ zs1 zs2 _ _ ids1 ids2 m al be K t NZ KP eq_refl E GP NC RG C1 C2).
Qed.
(** one polygon *)
Theorem C54_polygon : forall zs1 zs2 m al be K t, integer_input zs1 -> integer_input zs2 ->
  (al <> 0 \/ be <> 0)%Z -> (0 < K)%Z -> map (scaled K) zs2 = map (turned m al be t) zs1 -> no_four_cocircular (length zs1) (zat zs1) ->
  edges_apart zs1 (ring (length zs1)) -> (forall p q, In (p, q) (ring (length zs1)) \/ In (q, p) (ring (length zs1)) -> ~ capped zs1 p q /\ ~ capped zs2 p q) ->
  forall dbg1 dbg2, exists ids1 ids2, forall fuel, steps (length zs1) <= fuel ->
    indices64 dbg1 fuel zs1 [] [] = Done ids1 /\ indices64 dbg2 fuel zs2 [] [] = Done ids2 /\ same_indices_turned m ids1 ids2.
Proof.
  intros zs1 zs2 m al be K t IN1 IN2 NZ KP E NC EA CU dbg1 dbg2.
  assert (LE : length zs2 = length zs1) by (pose proof (f_equal (@length _) E) as Q; rewrite !map_length in Q; exact Q).
  assert (RG : forall c v, In c [seq 0 (length zs1)] -> In v c -> v < length zs1) by (intros c v [<-|[]] Iv; apply in_seq in Iv; lia).
  assert (EE : flat_map Stokes.cyc [seq 0 (length zs1)] = ring (length zs1)) by (cbn [flat_map]; rewrite app_nil_r, cyc_seq; reflexivity).
  assert (RE : forall x y, In (x, y) (ring (length zs1)) -> x < length zs1 /\ y < length zs1) by (intros x y; rewrite <- EE; apply edges_range; exact RG).
  pose proof (turned_apart zs1 zs2 _ m al be K t NZ KP E RE EA) as EA2.
  destruct (C28_integer_polygon_cdt_partial zs1 IN1 EA (fun p q H => proj1 (CU p q H)) dbg1) as (ids1 & H1 & C1).
  destruct (C28_integer_polygon_cdt_partial zs2 IN2) with (dbg := dbg2) as (ids2 & H2 & C2).
  - rewrite LE. exact EA2.
  - rewrite LE. intros p q H. exact (proj2 (CU p q H)).
  - exists ids1, ids2. intros fuel Lf. split; [exact (H1 fuel Lf)|]. split; [apply H2; rewrite LE; exact Lf|].
    rewrite LE in C2. rewrite <- EE in C1, C2. destruct (int_gp zs1 IN1) as [_ GP].
    exact (turned_lists _ zs1 zs2 _ _ ids1 ids2 m al be K t NZ KP eq_refl E GP NC RG C1 C2).
Qed.
(** a convex polygon that is turned but not mirrored: no hypothesis about caps *)
Theorem C54_convex_polygon : forall zs1 zs2 al be K t, integer_input zs1 -> integer_input zs2 -> convex_polygon zs1 ->
  (al <> 0 \/ be <> 0)%Z -> (0 < K)%Z -> map (scaled K) zs2 = map (turned false al be t) zs1 -> no_four_cocircular (length zs1) (zat zs1) ->
  forall dbg1 dbg2, exists ids1 ids2, forall fuel, steps (length zs1) <= fuel ->
    indices64 dbg1 fuel zs1 [] [] = Done ids1 /\ indices64 dbg2 fuel zs2 [] [] = Done ids2 /\ same_indices ids1 ids2.
Proof.
  intros zs1 zs2 al be K t IN1 IN2 C NZ KP E NC dbg1 dbg2.
  assert (LE : length zs2 = length zs1) by (pose proof (f_equal (@length _) E) as Q; rewrite !map_length in Q; exact Q).
  assert (C2 : convex_polygon zs2).
  { intros i j k L1 L2 L3. rewrite LE in L3. pose proof (turned_orient zs1 zs2 false al be K t E i j k ltac:(lia) ltac:(lia) L3) as Q. specialize (C i j k L1 L2 L3). pose proof (turn_pos al be NZ) as DP.
    assert (0 < (al * al + be * be) * orient (zat zs1 i) (zat zs1 j) (zat zs1 k))%Z by (apply Z.mul_pos_pos; assumption). unfold sgn in Q. assert (0 < K * K)%Z by (apply Z.mul_pos_pos; assumption).
    apply (Z.mul_pos_cancel_l (K * K)); [assumption|]. rewrite Q. lia. }
  destruct (convex_no_cap zs1 IN1 C) as [EA CU1]. destruct (convex_no_cap zs2 IN2 C2) as [_ CU2]. rewrite LE in CU2.
  destruct (C54_polygon zs1 zs2 false al be K t IN1 IN2 NZ KP E NC EA (fun p q H => conj (CU1 p q H) (CU2 p q H)) dbg1 dbg2) as (ids1 & ids2 & H).
  exists ids1, ids2. intros fuel Lf. destruct (H fuel Lf) as (A & B & D). split; [exact A|]. split; [exact B|]. apply not_mirrored. exact D.
Qed.

(** the star turned by the angle of a 3-4-5 triangle and enlarged; mirrored, turned, enlarged and shifted; and a quarter turn of a convex polygon *)
Definition star_345 : list zpt := map (turned false 3 4 (0, 0)%Z) star.
Definition star_mirrored : list zpt := map (turned true 4 (-3) (7, -5)%Z) star.
Lemma star_turned_ok zs : integer_inputb zs = true -> uncappedb zs (ring 8) = true -> integer_input zs /\ (forall p q, In (p, q) (ring 8) \/ In (q, p) (ring 8) -> ~ capped star p q /\ ~ capped zs p q).
Proof.
  intros H1 H2. split; [apply integer_inputb_ok; exact H1|]. intros p q I'. destruct star_ok as (_ & _ & H3 & _). split; [exact (H3 p q I')|exact (uncappedb_ok zs (ring 8) H2 p q I')].
Qed.
Lemma scaled_1_map zs : map (scaled 1) zs = zs.
Proof. rewrite <- (map_id zs) at 2. apply map_ext. intro. apply scaled_1. Qed.
Example star_turned : forall dbg, exists ids0 ids1 ids2, forall fuel, steps 8 <= fuel ->
  indices64 dbg fuel star [] [] = Done ids0 /\ indices64 dbg fuel star_345 [] [] = Done ids1 /\ indices64 dbg fuel star_mirrored [] [] = Done ids2 /\
  same_indices_turned false ids0 ids1 /\ same_indices_turned true ids0 ids2.
Proof.
  intro dbg. destruct star_ok as (H1 & H2 & _). assert (NC : no_four_cocircular 8 (zat star)) by (apply (cocircularb_ok star); vm_compute; reflexivity).
  destruct (star_turned_ok star_345) as [A1 A2]; [vm_compute; reflexivity|vm_compute; reflexivity|]. destruct (star_turned_ok star_mirrored) as [B1 B2]; [vm_compute; reflexivity|vm_compute; reflexivity|].
  destruct (C54_polygon star star_345 false 3 4 1 (0, 0)%Z H1 A1 ltac:(lia) ltac:(lia) (scaled_1_map _) NC H2 A2 dbg dbg) as (ids0 & ids1 & X).
  destruct (C54_polygon star star_mirrored true 4 (-3) 1 (7, -5)%Z H1 B1 ltac:(lia) ltac:(lia) (scaled_1_map _) NC H2 B2 dbg dbg) as (ids0' & ids2 & Y).
  exists ids0, ids1, ids2. intros fuel Lf. destruct (X fuel Lf) as (X1 & X2 & X3). destruct (Y fuel Lf) as (Y1 & Y2 & Y3).
  assert (ids0' = ids0) as -> by congruence. auto.
Qed.
(** the mirrored star is not the star with the same triangles: some triple is listed the other way round *)
Example star_mirrored_differs : forall dbg ids0 ids2 fuel, steps 8 <= fuel -> indices64 dbg fuel star [] [] = Done ids0 -> indices64 dbg fuel star_mirrored [] [] = Done ids2 -> ~ same_indices ids0 ids2.
Proof.
  intros dbg ids0 ids2 fuel Lf E0 E2 [S1 _]. destruct star_ok as (H1 & H2 & _).
  destruct (star_turned_ok star_mirrored) as [B1 B2]; [vm_compute; reflexivity|vm_compute; reflexivity|].
  assert (NC : no_four_cocircular 8 (zat star)) by (apply (cocircularb_ok star); vm_compute; reflexivity).
  destruct (C28_integer_polygon_cdt_partial star H1 H2 (fun p q H => proj1 (B2 p q H)) dbg) as (i0 & F0 & (R0 & _ & CF & _)).
  assert (EA2 : edges_apart star_mirrored (ring 8)) by (apply edges_apartb_ok; vm_compute; reflexivity).
  destruct (C28_integer_polygon_cdt_partial star_mirrored B1 EA2 (fun p q H => proj2 (B2 p q H)) dbg) as (i2 & F2 & (R2 & _)).
  rewrite (F0 fuel Lf) in E0. injection E0 as ->. rewrite (F2 fuel Lf) in E2. injection E2 as ->.
  destruct (proj1 CF 0 1 ltac:(vm_compute; auto)) as (i & [[a b] c] & Q & _). apply nth_error_In in Q.
  destruct (proj1 (proj2 R0) a b c Q) as ((La & Lb & Lc) & O).
  assert (OE : forall a b c, a < 8 -> b < 8 -> c < 8 -> (orient (zat star_mirrored a) (zat star_mirrored b) (zat star_mirrored c) = -25 * orient (zat star a) (zat star b) (zat star c))%Z).
  { intros x y w Lx Ly Lw. pose proof (turned_orient star star_mirrored true 4 (-3) 1 (7, -5)%Z (scaled_1_map _) x y w Lx Ly Lw) as T. unfold sgn in T. lia. }
  destruct (S1 a b c Q) as [J|[J|J]]; apply (proj1 (proj2 R2)) in J as (_ & J); rewrite OE in J by assumption; [|rewrite orient_rot in J|rewrite orient_rot' in J]; lia.
Qed.
(** a quarter turn of a convex polygon *)
Example nonagon_turned : forall dbg1 dbg2, exists ids1 ids2, forall fuel, steps 9 <= fuel ->
  indices64 dbg1 fuel nonagon [] [] = Done ids1 /\ indices64 dbg2 fuel (map (turned false 0 1 (0, 0)%Z) nonagon) [] [] = Done ids2 /\ same_indices ids1 ids2.
Proof.
  destruct nonagon_ok as [H1 H2]. assert (H3 : integer_input (map (turned false 0 1 (0, 0)%Z) nonagon)) by (apply integer_inputb_ok; vm_compute; reflexivity).
  assert (NC : no_four_cocircular 9 (zat nonagon)) by (apply (cocircularb_ok nonagon); vm_compute; reflexivity).
  exact (C54_convex_polygon nonagon _ 0 1 1 (0, 0)%Z H1 H3 H2 ltac:(lia) ltac:(lia) (scaled_1_map _) NC).
Qed.
(** the runs on the star and on the mirrored star, in two units, are such runs as C54_f64_finished_runs speaks of *)
Example star_good_runs : exists b1 fuel1 t1 cbs1 b2 fuel2 t2 cbs2, good_run unit true fuel1 (grid_src 0 star) [] b1 t1 cbs1 /\ good_run unit true fuel2 (grid_src 0 star_mirrored) [] b2 t2 cbs2 /\
  let zs1 := coords (c_points (build unit b1)) (length (history_points unit (grid_src 0 star) [])) in let zs2 := coords (c_points (build unit b2)) (length (history_points unit (grid_src 0 star_mirrored) [])) in
  map (scaled 1) zs2 = map (turned true 4 (-3) (scaled (2 ^ 1074) (7, -5)%Z)) zs1 /\ no_four_cocircular (length zs1) (zat zs1).
Proof.
  destruct star_ok as (H1 & H2 & H3 & _). destruct (star_turned_ok star_mirrored) as [B1 B2]; [vm_compute; reflexivity|vm_compute; reflexivity|].
  assert (EA2 : edges_apart star_mirrored (ring 8)) by (apply edges_apartb_ok; vm_compute; reflexivity).
  assert (RUN : forall zs, length zs = 8 -> integer_input zs -> edges_apart zs (ring 8) -> (forall p q, In (p, q) (ring 8) \/ In (q, p) (ring 8) -> ~ capped zs p q) ->
    exists b fuel t cbs, good_run unit true fuel (grid_src 0 zs) [] b t cbs /\ coords (c_points (build unit b)) (length (history_points unit (grid_src 0 zs) [])) = map (scaled (2 ^ (1074 + 0))) zs).
  { intros zs LZ IN EA CU. destruct (grid_polygon 0 zs) as (E1 & E2 & E3 & E4). rewrite LZ in E2, E3. apply (int_good_run unit true (grid_src 0 zs) [] 0%Z zs unit_0); auto.
    - rewrite E2. exact EA.
    - rewrite E2. exact CU.
    - rewrite E3, E4. intros c [<-|[]]. cbn. lia.
    - rewrite E4. intros k p h _ [].
    - rewrite E3, E4. intros v Lv Nv. exfalso. apply (Nv _ (or_introl eq_refl)). apply in_seq. rewrite LZ in Lv. lia. }
  destruct (RUN star eq_refl H1 H2 H3) as (b1 & f1 & t1 & c1 & G1 & E1). destruct (RUN star_mirrored eq_refl B1 EA2 (fun p q H => proj2 (B2 p q H))) as (b2 & f2 & t2 & c2 & G2 & E2).
  exists b1, f1, t1, c1, b2, f2, t2, c2. split; [exact G1|]. split; [exact G2|]. cbv zeta. rewrite E1, E2. split.
  - rewrite scaled_1_map. unfold star_mirrored. rewrite !map_map. apply map_ext. intro p. rewrite Z.add_0_r. apply turned_scaled.
  - apply cocircular_scaled; [apply (KK_pos 0 unit_0)|]. apply cocircularb_ok. vm_compute. reflexivity.
Qed.
(** the star in units of 1/1024 and the mirrored star in units of 1 *)
Example star_turned_units : exists b1 b2, builder_of unit (grid_src (-10) star) [] = Done b1 /\ builder_of unit (grid_src 0 star_mirrored) [] = Done b2 /\
  forall dbg1 dbg2, exists t1 t2 ids1 ids2,
    (forall fuel, steps 8 <= fuel -> triangulate dbg1 unit fuel (build unit b1) = Done t1) /\ triangle_list_indices dbg1 unit t1 = Done ids1 /\
    (forall fuel, steps 8 <= fuel -> triangulate dbg2 unit fuel (build unit b2) = Done t2) /\ triangle_list_indices dbg2 unit t2 = Done ids2 /\ same_indices_turned true ids1 ids2.
Proof.
  destruct star_ok as (H1 & H2 & _). destruct (star_turned_ok star_mirrored) as [B1 B2]; [vm_compute; reflexivity|vm_compute; reflexivity|].
  destruct (grid_polygon (-10) star) as (E1 & E2 & E3 & E4). destruct (grid_polygon 0 star_mirrored) as (G1 & G2 & G3 & G4).
  assert (NC : no_four_cocircular 8 (zat star)) by (apply (cocircularb_ok star); vm_compute; reflexivity).
  assert (LP : forall zs, length zs = 8 -> loose_points_allowed zs (seq 0 8) []) by (intros zs LZ v Lv Nv; exfalso; apply (Nv _ (or_introl eq_refl)); apply in_seq; rewrite LZ in Lv; lia).
  apply (C54_turned unit unit (grid_src (-10) star) [] star (grid_src 0 star_mirrored) [] star_mirrored (-10)%Z 0%Z true 4%Z (-3)%Z 1%Z (7, -5)%Z); auto; try lia.
  - split; discriminate.
  - exact unit_0.
  - intros c [<-|[]]. cbn. lia.
  - intros k p h _ [].
  - intros k p h _ [].
Qed.
Print Assumptions C54_f64_finished_runs.
Print Assumptions C54_turned.
Print Assumptions C54_polygon.
Print Assumptions C54_convex_polygon.
