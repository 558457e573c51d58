(** * PropsInt: polygons with integer coordinates

    Everything here is stated on the integer coordinates the user wrote down: an input of
    points (x, y) with integers |x|, |y| <= 65536, no three of which are on a line, the two
    artificial points included ([integer_input], IntSpec.v).  The f64 computations of the code on such an
    input are shown to take the right decisions, although they round. *)
From Coq Require Import List Arith Bool Lia ZArith Permutation Reals Lra.
From Coq.Floats Require Import SpecFloat.
From Flocq Require Core.Raux.
From Verif Require Import Base Num Shape ShapeSpec Utils Points Triangles Front Sweeper Cdt F64 Lists BuilderSpec History SortSpec Monad Traverse TraceSpec Grow
  Exact F64Exact FloatLaws Spec PropsBuilder PropsTrace PropsSafe FrontSpec Geom Mesh Setup Good Init Winding CoverRun Stokes Region PropsMesh PropsCover PropsMarks PropsRegion FillTotal Local PropsTotal PropsCup PropsTri F64Real IntSpec IntF64 IntRun IntHyp.
Import ListNotations.
Local Open Scope nat_scope.

(** ** C34: on integer points that are not all on one horizontal or vertical line the artificial points are strictly outside *)
Theorem C34_integer_frame_strict_partial : forall ue zs, unit_ok ue -> (forall z, In z zs -> (Z.abs (fst z) <= 65536)%Z /\ (Z.abs (snd z) <= 65536)%Z) ->
  (exists p q, In p zs /\ In q zs /\ (fst p < fst q)%Z) -> (exists p q, In p zs /\ In q zs /\ (snd p < snd q)%Z) ->
  let ps := map (grid ue) zs in forall z, In z zs ->
    f_lt (px (head_point ps)) (px (grid ue z)) = true /\ f_lt (px (grid ue z)) (px (tail_point ps)) = true /\
    f_lt (py (head_point ps)) (py (grid ue z)) = true /\ f_lt (py (tail_point ps)) (py (grid ue z)) = true.
Proof.
  intros ue zs UB SM (px1 & px2 & IX1 & IX2 & LX) (py1 & py2 & IY1 & IY2 & LY) ps z Iz.
  assert (NE : zs <> []) by (intros ->; destruct Iz).
  pose proof (bbox ue UB px fst zs NE (fun z Hz => conj eq_refl (proj1 (SM z Hz)))) as (X1 & X2 & X3 & X4 & X5 & X6 & X7).
  pose proof (bbox ue UB py snd zs NE (fun z Hz => conj eq_refl (proj2 (SM z Hz)))) as (Y1 & Y2 & Y3 & Y4 & Y5 & Y6 & Y7).
  destruct (frame_near ue UB _ _ _ _ X3 X1 X4 X2 X5 X6 X7) as [FX1 FX2]. destruct (frame_near ue UB _ _ _ _ Y3 Y1 Y4 Y2 Y5 Y6 Y7) as [FY1 _].
  assert (M : forall (f : zpt -> Z) q, In q zs -> (least (map f zs) <= f q <= greatest (map f zs))%Z).
  { intros f q Iq. assert (I' : In (f q) (map f zs)) by (apply in_map; exact Iq). assert (N' : map f zs <> []) by (intro Q; rewrite Q in I'; destruct I').
    split; [apply (least_ok _ N')|apply (greatest_ok _ N')]; auto. }
  set (xl := least (map fst zs)) in *. set (xh := greatest (map fst zs)) in *. set (yl := least (map snd zs)) in *. set (yh := greatest (map snd zs)) in *.
  assert (MX : forall q, In q zs -> (xl <= fst q <= xh)%Z) by (intros q Iq; exact (M fst q Iq)). assert (MY : forall q, In q zs -> (yl <= snd q <= yh)%Z) by (intros q Iq; exact (M snd q Iq)).
  pose proof (MX px1 IX1) as J1. pose proof (MX px2 IX2) as J2. pose proof (MX z Iz) as [MX1 MX2]. pose proof (MY py1 IY1) as J3. pose proof (MY py2 IY2) as J4. pose proof (MY z Iz) as [MY1 MY2].
  destruct (f64_small ue UB (fst z)) as (F1 & V1 & _); [apply SM; auto|]. destruct (f64_small ue UB (snd z)) as (F2 & V2 & _); [apply SM; auto|].
  assert (WX : (xl + 1 <= xh)%Z) by lia. assert (WY : (yl + 1 <= yh)%Z) by lia. apply IZR_le in WX, WY, MX1, MX2, MY1, MY2. rewrite plus_IZR in WX, WY.
  destruct FX1 as (G1 & H1 & _), FX2 as (G2 & H2 & _), FY1 as (G3 & H3 & _).
  change (ffin (px (head_point ps))) in G1. change (ffin (px (tail_point ps))) in G2. pose proof (G3 : ffin (py (tail_point ps))) as G4. change (ffin (py (head_point ps))) in G3.
  change (Rabs (wv ue (px (head_point ps)) - IZR (10 * xl - 3 * (xh - xl)) / 10) <= dl)%R in H1. change (Rabs (wv ue (px (tail_point ps)) - IZR (10 * xh + 3 * (xh - xl)) / 10) <= dl)%R in H2.
  pose proof (H3 : (Rabs (wv ue (py (tail_point ps)) - IZR (10 * yl - 3 * (yh - yl)) / 10) <= dl)%R) as H4. change (Rabs (wv ue (py (head_point ps)) - IZR (10 * yl - 3 * (yh - yl)) / 10) <= dl)%R in H3.
  clear - UB F1 V1 F2 V2 WX WY MX1 MX2 MY1 MY2 G1 G2 G3 G4 H1 H2 H3 H4.
  rewrite minus_IZR, !mult_IZR, minus_IZR in H1, H3, H4. rewrite plus_IZR, !mult_IZR, minus_IZR in H2. apply Flocq.Core.Raux.Rabs_le_inv in H1, H2, H3, H4. unfold dl in *.
  change (px (grid ue z)) with (fixed ue (fst z)). change (py (grid ue z)) with (fixed ue (snd z)).
  split; [|split; [|split]]; apply (flt_w ue); try assumption; rewrite ?V1, ?V2; lra.
Qed.
Print Assumptions C34_integer_frame_strict_partial.

(** ** C42: on integer inputs the rounded tests of the sweep decide as exact arithmetic would *)
Theorem C42_integer_inputs_decided_exactly : forall PD (src : @source F64 PD) calls ue zs (b : Builder PD),
  unit_ok ue -> history_points PD src calls = map (grid ue) zs -> integer_input zs -> builder_of PD src calls = Done b ->
  let ps := c_points (build PD b) in
  proper ps /\ nocol ps /\ scan_exact ps /\ eps_ok ps /\ exact_fills ps /\ (forall v, v < length zs -> zc ps v = scaled (2 ^ (1074 + ue)) (zat zs v)).
Proof.
  intros PD src calls ue zs b UB HP IN B ps. split; [exact (i_proper PD src calls ue zs UB HP IN b B)|].
  destruct (ps_new PD src calls ue zs HP b B) as [es E].
  split; [unfold ps; rewrite E; apply int_nocol; assumption|]. split; [unfold ps; rewrite E; apply int_scan; assumption|].
  split; [exact (i_eps PD src calls ue zs UB HP IN b B)|]. split; [exact (i_fills PD src calls ue zs UB HP IN b B)|]. intros v Lv. exact (i_zc PD src calls ue zs UB HP IN b B v Lv).
Qed.

(** ** C28 (with C26, C27, C29, C30): integer inputs without a cap below a right-leaning edge.  The builder and
    the triangulation succeed in both build profiles, and the list returned is the triangulation of the polygon with its holes. *)
Theorem C28_integer_inputs_triangulated_partial : forall PD (src : @source F64 PD) calls ue zs,
  unit_ok ue -> history_points PD src calls = map (grid ue) zs -> integer_input zs ->
  let es := history_edges PD src calls in
  edges_apart zs es -> (forall p q, In (p, q) es \/ In (q, p) es -> ~ capped zs p q) ->
  let poly := outer_contour PD src in let holes := hole_contours PD src calls in
  (forall c, In c (poly :: holes) -> 3 <= length c) -> holes_inside zs poly holes -> loose_points_allowed zs poly holes ->
  exists b, builder_of PD src calls = Done b /\
  forall dbg, exists t ids, (forall fuel, steps (length zs) <= fuel -> triangulate dbg PD fuel (build PD b) = Done t) /\
    triangle_list_indices dbg PD t = Done ids /\ fills_region (length zs) (zat zs) poly holes ids.
Proof.
  intros PD src calls ue zs UB HP IN es EA CUP poly holes L3 HN ST. destruct (int_builder PD src calls ue zs UB HP IN L3) as [b B]. exists b. split; auto. intro dbg.
  destruct (C28_cup_inputs_triangle_list_partial PD src calls b B (i_proper PD src calls ue zs UB HP IN b B) (i_plane PD src calls ue zs UB HP IN b B EA)
    (i_eps PD src calls ue zs UB HP IN b B) (i_fills PD src calls ue zs UB HP IN b B) (i_cap PD src calls ue zs UB HP IN b B CUP) L3 (i_nested PD src calls ue zs UB HP IN b B HN) (i_steiner PD src calls ue zs UB HP IN b B ST) dbg)
    as (t & ids & H1 & H2 & H3).
  rewrite (len_hp PD src calls ue zs HP) in H1, H3. exists t, ids. split; auto. split; auto. apply (i_region PD src calls ue zs UB HP IN b B ids H3).
Qed.

(** the sides of the polygon 0, 1,..., n-1 *)
Definition ring (n : nat) : list (nat * nat) := map (fun i => (i, S i mod n)) (seq 0 n).
(** one polygon, no holes, no Steiner points: [Builder::new(poly).build().triangulate().triangle_list_indices()] *)
Theorem C28_integer_polygon_triangulated_partial : forall zs, integer_input zs ->
  edges_apart zs (ring (length zs)) -> (forall p q, In (p, q) (ring (length zs)) \/ In (q, p) (ring (length zs)) -> ~ capped zs p q) ->
  forall dbg, exists ids, (forall fuel, steps (length zs) <= fuel -> indices64 dbg fuel zs [] [] = Done ids) /\
    fills_region (length zs) (zat zs) (seq 0 (length zs)) [] ids.
Proof.
  intros zs IN EA CUP dbg.
  assert (LS : length (fst (unit_src zs)) = length zs) by (apply map_length).
  set (calls := [CSteiners unit (unit_src [])] : list (@call F64 unit)).
  assert (HE : history_edges unit (unit_src zs) calls = ring (length zs)).
  { unfold history_edges. rewrite LS. cbn [calls calls_edges call_edges app]. rewrite app_nil_r. reflexivity. }
  assert (OC : outer_contour unit (unit_src zs) = seq 0 (length zs)) by (unfold outer_contour; rewrite LS; reflexivity).
  destruct (C28_integer_inputs_triangulated_partial unit (unit_src zs) calls 0%Z zs unit_0) as (b & B & H); auto.
  - unfold history_points. cbn. apply app_nil_r.
  - rewrite HE. exact EA.
  - rewrite HE. exact CUP.
  - intros c [<-|[]]. rewrite OC, seq_length. apply IN.
  - intros k p h _ [].
  - intros v Lv Nv. exfalso. apply (Nv _ (or_introl eq_refl)). rewrite OC. apply in_seq. lia.
  - destruct (H dbg) as (t & ids & H1 & H2 & H3). exists ids. rewrite OC in H3. split; [|exact H3].
    intros fuel Lf. specialize (H1 fuel Lf). unfold indices64, triangulate64, cdt64. cbn [map]. unfold builder_of in B.
    destruct (builder_new unit (unit_src zs)) as [b0| | |]; try discriminate. cbn [rbind calls apply_calls apply_call] in B. injection B as <-. cbn [rbind add_holes].
    rewrite H1. cbn [rbind]. exact H2.
Qed.

(** in particular every convex polygon, given counter-clockwise *)
Definition convex_polygon (zs : list zpt) : Prop := forall i j k, i < j -> j < k -> k < length zs -> (0 < orient (zat zs i) (zat zs j) (zat zs k))%Z.
Lemma convex_cyclic zs i j k : convex_polygon zs -> i < length zs -> j < length zs -> k < length zs -> (0 < orient (zat zs i) (zat zs j) (zat zs k))%Z ->
  (i < j /\ j < k) \/ (j < k /\ k < i) \/ (k < i /\ i < j).
Proof.
  intros C Li Lj Lk O.
  assert (S2 : forall a b c, orient (zat zs b) (zat zs a) (zat zs c) = (- orient (zat zs a) (zat zs b) (zat zs c))%Z) by (intros; apply orient_swap).
  assert (S3 : forall a b c, orient (zat zs b) (zat zs c) (zat zs a) = orient (zat zs a) (zat zs b) (zat zs c)) by (intros; apply orient_rot).
  assert (DI : i <> j /\ j <> k /\ i <> k).
  { split; [|split]; intros ->; revert O; [destruct (zat zs j), (zat zs k)|destruct (zat zs i), (zat zs k)|destruct (zat zs j), (zat zs k)]; zpts; intro O; ring_simplify in O; lia. }
  destruct DI as (D1 & D2 & D3).
  destruct (Nat.lt_total i j) as [Q1|[Q1|Q1]]; [|contradiction|]; (destruct (Nat.lt_total j k) as [Q2|[Q2|Q2]]; [|contradiction|]); (destruct (Nat.lt_total i k) as [Q3|[Q3|Q3]]; [|contradiction|]); auto; try lia; exfalso.
  - pose proof (C i k j Q3 Q2 Lj) as X. rewrite (S3 j i k), (S2 i j k) in X. lia.
  - pose proof (C j i k Q1 Q3 Lk) as X. rewrite (S2 i j k) in X. lia.
  - pose proof (C k j i Q2 Q1 Li) as X. rewrite (S3 i k j), (S3 j i k), (S2 i j k) in X. lia.
Qed.

Lemma convex_polygon_points zs : convex_polygon zs -> convex_points zs.
Proof.
  intros C a b c d La Lb Lc Ld (H1 & H2 & H3). apply (convex_cyclic zs) in H1, H2, H3; auto. lia.
Qed.
Lemma ring_in n e : In e (ring n) -> fst e < n /\ snd e = S (fst e) mod n.
Proof. unfold ring. rewrite in_map_iff. intros (i & <- & I'). apply in_seq in I'. cbn [fst snd]. lia. Qed.
Lemma convex_side zs e v : convex_polygon zs -> 3 <= length zs -> In e (ring (length zs)) -> v < length zs -> (0 <= orient (zat zs (fst e)) (zat zs (snd e)) (zat zs v))%Z.
Proof.
  intros C L I' Lv. apply ring_in in I' as [Li Ej]. set (i := fst e) in *. rewrite Ej. clear Ej.
  assert (Z0 : forall a b, orient a b a = 0%Z /\ orient a b b = 0%Z) by (intros [] []; split; zpts; ring).
  destruct (Nat.eq_dec (S i) (length zs)) as [Q|Q].
  - rewrite Q, Nat.mod_same by lia. destruct (Nat.eq_dec v i) as [->|N1]; [rewrite (proj1 (Z0 _ _)); lia|]. destruct (Nat.eq_dec v 0) as [->|N2]; [rewrite (proj2 (Z0 _ _)); lia|].
    pose proof (C 0 v i ltac:(lia) ltac:(lia) ltac:(lia)) as X. rewrite <- orient_rot' in X. lia.
  - rewrite Nat.mod_small by lia. destruct (Nat.eq_dec v i) as [->|N1]; [rewrite (proj1 (Z0 _ _)); lia|]. destruct (Nat.eq_dec v (S i)) as [->|N2]; [rewrite (proj2 (Z0 _ _)); lia|].
    destruct (Nat.lt_ge_cases v i) as [G|G].
    + pose proof (C v i (S i) ltac:(lia) ltac:(lia) ltac:(lia)) as X. rewrite <- orient_rot in X. lia.
    + pose proof (C i (S i) v ltac:(lia) ltac:(lia) ltac:(lia)) as X. lia.
Qed.
Lemma convex_no_cap : forall zs, integer_input zs -> convex_polygon zs ->
  edges_apart zs (ring (length zs)) /\ (forall p q, In (p, q) (ring (length zs)) \/ In (q, p) (ring (length zs)) -> ~ capped zs p q).
Proof.
  intros zs IN C. assert (L : 3 <= length zs) by apply IN.
  assert (M : forall e, In e (ring (length zs)) -> fst e < length zs /\ snd e < length zs).
  { intros e I'. apply ring_in in I' as [H1 H2]. split; auto. rewrite H2. apply Nat.mod_upper_bound. lia. }
  split.
  - intros e e' I1' I2' [X _]. destruct (M e' I2') as [L1 L2]. pose proof (convex_side zs e _ C L I1' L1). pose proof (convex_side zs e _ C L I1' L2). assert (0 <= orient (zat zs (fst e)) (zat zs (snd e)) (zat zs (fst e')) * orient (zat zs (fst e)) (zat zs (snd e)) (zat zs (snd e')))%Z by (apply Z.mul_nonneg_nonneg; auto). lia.
  - intros p q E (Y & X & u & v & w & Lu & Lv & Lw & H1 & H2 & H3 & H4 & H5 & H6 & H7 & H8).
    assert (LL : p < length zs /\ q < length zs) by (destruct E as [E|E]; apply M in E; cbn [fst snd] in E; tauto). destruct LL as [Lp Lq].
    destruct (Z.eq_dec (orient (zat zs u) (zat zs v) (zat zs w)) 0) as [Q|Q].
    + destruct IN as (_ & _ & NC).
      assert (SC : forall i j k, i < j -> j < k -> k < length zs -> orient (zat zs i) (zat zs j) (zat zs k) <> 0%Z) by (intros i j k A1 A2 A3; specialize (C i j k A1 A2 A3); lia).
      assert (DU : u <> v /\ v <> w /\ u <> w) by (split; [|split]; intros ->; lia). destruct DU as (D1 & D2 & D3).
      assert (S2 : forall a b c, orient (zat zs b) (zat zs a) (zat zs c) = (- orient (zat zs a) (zat zs b) (zat zs c))%Z) by (intros; apply orient_swap).
      assert (S3 : forall a b c, orient (zat zs b) (zat zs c) (zat zs a) = orient (zat zs a) (zat zs b) (zat zs c)) by (intros; apply orient_rot).
      destruct (Nat.lt_total u v) as [Q1|[Q1|Q1]]; [|contradiction|]; (destruct (Nat.lt_total v w) as [Q2|[Q2|Q2]]; [|contradiction|]); (destruct (Nat.lt_total u w) as [Q3|[Q3|Q3]]; [|contradiction|]); try lia.
      * pose proof (SC u v w Q1 Q2 Lw). lia.
      * pose proof (SC u w v Q3 Q2 Lv) as R. rewrite (S3 v u w), (S2 u v w) in R. lia.
      * pose proof (SC w u v Q3 Q1 Lv) as R. rewrite (S3 v w u), (S3 u v w) in R. lia.
      * pose proof (SC v u w Q1 Q3 Lw) as R. rewrite (S2 u v w) in R. lia.
      * pose proof (SC v w u Q2 Q3 Lu) as R. rewrite (S3 u v w) in R. lia.
      * pose proof (SC w v u Q2 Q1 Lu) as R. rewrite (S3 u w v), (S3 v u w), (S2 u v w) in R. lia.
    + apply (convex_polygon_points zs C q w p v Lq Lw Lp Lv). apply (inside_of_cap (zat zs q) (zat zs u) (zat zs v) (zat zs w) (zat zs p)); auto. lia.
Qed.
Theorem C28_convex_polygon_triangulated : forall zs, integer_input zs -> convex_polygon zs ->
  forall dbg, exists ids, (forall fuel, steps (length zs) <= fuel -> indices64 dbg fuel zs [] [] = Done ids) /\
    fills_region (length zs) (zat zs) (seq 0 (length zs)) [] ids.
Proof. intros zs IN C. destruct (convex_no_cap zs IN C) as [EA CUP]. apply C28_integer_polygon_triangulated_partial; assumption. Qed.
Print Assumptions C42_integer_inputs_decided_exactly.
Print Assumptions C28_integer_inputs_triangulated_partial.
Print Assumptions C28_integer_polygon_triangulated_partial.
Print Assumptions C28_convex_polygon_triangulated.
