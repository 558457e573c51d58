(** * PropsCdtInt: C43 - C45 for inputs with integer coordinates, and for convex polygons *)
From Coq Require Import List Arith Bool Lia ZArith Permutation Reals Lra.
From Coq.Floats Require Import SpecFloat.
From Verif Require Import Base Num Shape ShapeSpec Utils Points Triangles Front Sweeper Cdt F64 Lists BuilderSpec History SortSpec Monad Traverse TraceSpec Grow
  Exact F64Exact FloatLaws Spec PropsBuilder PropsTrace PropsSafe FrontSpec Geom Mesh Setup Good Init Winding CoverRun Stokes Region PropsMesh PropsCover PropsMarks PropsRegion FillTotal Local PropsTotal PropsCup PropsTri F64Real IntSpec IntF64 IntRun IntHyp PropsInt PropsCdt.
Import ListNotations.
Local Open Scope nat_scope.

(** everything proved of a returned list *)
Definition proper_cdt (n : nat) (z : nat -> zpt) (es : list (nat * nat)) (poly : list nat) (holes : list (list nat)) (ids : list nat) : Prop :=
  fills_region n z poly holes ids /\ constrained_delaunay n z es ids /\ conforming es ids /\ no_point_lost n z poly holes ids.

(** the properties do not depend on the unit of length *)
Lemma cdt_rescale n (z z' : nat -> zpt) es ids K : (0 < K)%Z -> (forall v, v < n -> z' v = scaled K (z v)) ->
  (forall a b c, In (a, b, c) (triples ids) -> a < n /\ b < n /\ c < n) -> (forall x y, In (x, y) es -> x < n /\ y < n) ->
  constrained_delaunay n z' es ids -> constrained_delaunay n z es ids.
Proof.
  intros KP ZS RT RE H a b c v k p IN Lv K0 PT VIS. destruct (RT a b c IN) as (La & Lb & Lc).
  assert (SW : forall a, scaled k (scaled K a) = scaled K (scaled k a)) by (intro q; rewrite !scaled_scaled, Z.mul_comm; reflexivity).
  specialize (H a b c v k (scaled K p) IN Lv K0). unfold point_in in *. rewrite !ZS in H by assumption. rewrite !SW, incircle_scaled, scale_nonpos in H by assumption.
  apply H; [apply inside_scaled; assumption|]. intros x y Ie Nx Ny T. apply (VIS x y Ie Nx Ny). destruct (RE x y Ie) as [Lx Ly].
  rewrite !ZS, !SW in T by assumption. unfold touches in *. rewrite !orient_scaled in T.
  assert (KK4 : (0 < K * K * (K * K))%Z) by (repeat apply Z.mul_pos_pos; assumption).
  assert (X : forall s t, (K * K * s * (K * K * t) <= 0 -> s * t <= 0)%Z).
  { intros s t Q. replace (K * K * s * (K * K * t))%Z with (K * K * (K * K) * (s * t))%Z in Q by ring. exact (proj1 (scale_nonpos K _ KP) Q). }
  destruct T as [T1 T2]. split; [rewrite (orient_scaled k); apply X; exact T1|apply X; exact T2].
Qed.

(** a run that finishes: f64 *)
Theorem C43_finished_run : forall PD dbg fuel (src : @source F64 PD) calls (b : Builder PD) t cbs,
  builder_of PD src calls = Done b -> let ps := c_points (build PD b) in
  proper ps -> plane_input ps (history_edges PD src calls) -> observed dbg fuel (build PD b) = (Done t, cbs) -> fills_ccw ps cbs ->
  let poly := outer_contour PD src in let holes := hole_contours PD src calls in
  (forall c, In c (poly :: holes) -> 3 <= length c) -> holes_nested ps poly holes -> steiner_allowed PD ps src calls ->
  exists ids, triangle_list_indices dbg PD t = Done ids /\
    proper_cdt (length (history_points PD src calls)) (zc ps) (history_edges PD src calls) poly holes ids.
Proof.
  intros PD dbg fuel src calls b t cbs B ps PP PI O F poly holes L3 HN ST.
  destruct (C26_triangle_list PD dbg fuel src calls b t cbs F64_eq_not_lt F64_eq_sym B PP PI O F L3 HN ST) as (ids & H1 & H2).
  exists ids. split; [exact H1|]. split; [exact H2|]. split; [|split].
  - exact (C43_globally_constrained_delaunay PD dbg fuel src calls b t cbs ids F64_eq_not_lt F64_eq_sym B PP PI O F L3 HN ST H1).
  - exact (C44_conforming PD dbg fuel src calls b t cbs ids F64_eq_not_lt F64_eq_sym B PP PI O F L3 HN ST H1).
  - exact (C45_no_point_lost PD dbg fuel src calls b t cbs ids F64_eq_not_lt F64_eq_sym B PP PI O F L3 HN ST H1).
Qed.

Section Int.
Variables (PD : Type) (src : @source F64 PD) (calls : list (@call F64 PD)) (ue : Z) (zs : list zpt).
Hypothesis UB : unit_ok ue.
Hypothesis HP : history_points PD src calls = map (grid ue) zs.
Hypothesis IN : integer_input zs.
Variable b : @Builder F64 PD.
Hypothesis B : builder_of PD src calls = Done b.
Notation ps := (c_points (build PD b)).
Notation es := (history_edges PD src calls).
Notation poly := (outer_contour PD src).
Notation holes := (hole_contours PD src calls).

Lemma i_cdt ids : proper_cdt (length zs) (zc ps) es poly holes ids -> proper_cdt (length zs) (zat zs) es poly holes ids.
Proof using UB HP IN B.
  intros (H1 & H2 & H3 & H4). split; [exact (i_region PD src calls ue zs UB HP IN b B ids H1)|].
  pose proof (contours_range PD src calls) as [_ RG]. rewrite (len_hp PD src calls ue zs HP) in RG.
  split; [|split; [exact H3|]].
  - apply (cdt_rescale (length zs) (zat zs) (zc ps) es ids (2 ^ (1074 + ue))%Z (KK_pos ue UB)).
    + intros v Lv. exact (i_zc PD src calls ue zs UB HP IN b B v Lv).
    + intros x y w I'. apply H1. exact I'.
    + intros x y I'. rewrite <- contours_edges in I'. apply in_flat_map in I' as (c & Ic & I'). apply cyc_in in I' as [X Y]. cbn [fst snd] in *. split; eapply RG; eauto.
    + exact H2.
  - intros v Lv H. apply (H4 v Lv). destruct H as [H|[W1 W2]]; [left; exact H|right].
    assert (WP : forall c, In c (poly :: holes) -> wind (zc ps) c (zc ps v) = wind (zat zs) c (zat zs v)).
    { intros c Ic. rewrite <- (wind_1 (zc ps)), <- (wind_1 (zat zs)). rewrite (i_zc PD src calls ue zs UB HP IN b B v Lv). exact (i_winds' PD src calls ue zs UB HP IN b B c 1%Z (zat zs v) Ic). }
    split; [rewrite WP by (left; reflexivity); exact W1|]. intros h Ih. rewrite WP by (right; exact Ih). auto.
Qed.
End Int.

(** ** any finished run on integer input *)
Theorem C43_integer_finished_run : forall PD dbg fuel (src : @source F64 PD) calls ue zs (b : Builder PD) t cbs,
  unit_ok ue -> history_points PD src calls = map (grid ue) zs -> integer_input zs -> builder_of PD src calls = Done b ->
  let es := history_edges PD src calls in edges_apart zs es ->
  observed dbg fuel (build PD b) = (Done t, cbs) -> fills_ccw (c_points (build PD b)) cbs ->
  let poly := outer_contour PD src in let holes := hole_contours PD src calls in
  (forall c, In c (poly :: holes) -> 3 <= length c) -> holes_inside zs poly holes -> loose_points_allowed zs poly holes ->
  exists ids, triangle_list_indices dbg PD t = Done ids /\ proper_cdt (length zs) (zat zs) es poly holes ids.
Proof.
  intros PD dbg fuel src calls ue zs b t cbs UB HP IN B es EA O F poly holes L3 HN ST.
  destruct (C43_finished_run PD dbg fuel src calls b t cbs B (i_proper PD src calls ue zs UB HP IN b B) (i_plane PD src calls ue zs UB HP IN b B EA) O F L3 (i_nested PD src calls ue zs UB HP IN b B HN) (i_steiner PD src calls ue zs UB HP IN b B ST)) as (ids & H1 & H2).
  exists ids. split; [exact H1|]. rewrite (len_hp PD src calls ue zs HP) in H2. exact (i_cdt PD src calls ue zs UB HP IN b B ids H2).
Qed.

(** ** integer inputs without a cap: the run finishes and returns the constrained Delaunay triangulation *)
Theorem C28_integer_inputs_cdt_partial : forall PD (src : @source F64 PD) calls ue zs,
  unit_ok ue -> history_points PD src calls = map (grid ue) zs -> integer_input zs ->
  let es := history_edges PD src calls in
  edges_apart zs es -> (forall p q, In (p, q) es \/ In (q, p) es -> ~ capped zs p q) ->
  let poly := outer_contour PD src in let holes := hole_contours PD src calls in
  (forall c, In c (poly :: holes) -> 3 <= length c) -> holes_inside zs poly holes -> loose_points_allowed zs poly holes ->
  exists b, builder_of PD src calls = Done b /\
  forall dbg, exists t ids, (forall fuel, steps (length zs) <= fuel -> triangulate dbg PD fuel (build PD b) = Done t) /\
    triangle_list_indices dbg PD t = Done ids /\ proper_cdt (length zs) (zat zs) es poly holes ids.
Proof.
  intros PD src calls ue zs UB HP IN es EA CUP poly holes L3 HN ST. destruct (int_builder PD src calls ue zs UB HP IN L3) as [b B]. exists b. split; auto. intro dbg.
  assert (NE : history_points PD src calls <> []) by (rewrite HP; destruct IN as (L & _); destruct zs; [cbn in L; lia|discriminate]).
  pose proof (i_plane PD src calls ue zs UB HP IN b B EA) as PI.
  pose proof (plane_planar PD src calls b F64_eq_not_lt F64_eq_sym B PI) as PN.
  destruct (C28_cup_inputs_complete_partial PD dbg src calls b B NE (i_proper PD src calls ue zs UB HP IN b B) PN (i_eps PD src calls ue zs UB HP IN b B) (i_fills PD src calls ue zs UB HP IN b B) (i_cap PD src calls ue zs UB HP IN b B CUP)) as (t & cbs & H).
  destruct (H _ (le_n _)) as [O F].
  destruct (C43_integer_finished_run PD dbg _ src calls ue zs b t cbs UB HP IN B EA O F L3 HN ST) as (ids & H1 & H2).
  exists t, ids. split; [|auto]. intros fuel Lf. rewrite <- (len_hp PD src calls ue zs HP) in Lf. destruct (H fuel Lf) as [O' _].
  unfold observed, triangulate_with_observer in O'. unfold triangulate, triangulate_with_observer. destruct (run dbg fuel (c_points (build PD b))) as [r ctx]. injection O' as O' _. exact O'.
Qed.
Theorem C28_integer_polygon_cdt_partial : forall zs, integer_input zs ->
  edges_apart zs (ring (length zs)) -> (forall p q, In (p, q) (ring (length zs)) \/ In (q, p) (ring (length zs)) -> ~ capped zs p q) ->
  forall dbg, exists ids, (forall fuel, steps (length zs) <= fuel -> indices64 dbg fuel zs [] [] = Done ids) /\
    proper_cdt (length zs) (zat zs) (ring (length zs)) (seq 0 (length zs)) [] ids.
Proof.
  intros zs IN EA CUP dbg.
  assert (LS : length (fst (unit_src zs)) = length zs) by (apply map_length).
  set (calls := [CSteiners unit (unit_src [])] : list (@call F64 unit)).
  assert (HE : history_edges unit (unit_src zs) calls = ring (length zs)).
  { unfold history_edges. rewrite LS. cbn [calls calls_edges call_edges app]. rewrite app_nil_r. reflexivity. }
  assert (OC : outer_contour unit (unit_src zs) = seq 0 (length zs)) by (unfold outer_contour; rewrite LS; reflexivity).
  destruct (C28_integer_inputs_cdt_partial unit (unit_src zs) calls 0%Z zs unit_0) as (b & B & H); auto.
  - unfold history_points. cbn. apply app_nil_r.
  - rewrite HE. exact EA.
  - rewrite HE. exact CUP.
  - intros c [<-|[]]. rewrite OC, seq_length. apply IN.
  - intros k p h _ [].
  - intros v Lv Nv. exfalso. apply (Nv _ (or_introl eq_refl)). rewrite OC. apply in_seq. lia.
  - destruct (H dbg) as (t & ids & H1 & H2 & H3). exists ids. rewrite OC, HE in H3. split; [|exact H3].
    intros fuel Lf. specialize (H1 fuel Lf). unfold indices64, triangulate64, cdt64. cbn [map]. unfold builder_of in B.
    destruct (builder_new unit (unit_src zs)) as [b0| | |]; try discriminate. cbn [rbind calls apply_calls apply_call] in B. injection B as <-. cbn [rbind add_holes].
    rewrite H1. cbn [rbind]. exact H2.
Qed.

(** ** convex polygons: nothing blocks a view, the triangulation is Delaunay in the full sense *)
Lemma bary x y a b c p : (orient a b c * orient x y p = orient b c p * orient x y a + orient c a p * orient x y b + orient a b p * orient x y c)%Z.
Proof. destruct x, y, a, b, c, p. zpts. ring. Qed.
Lemma convex_edge_strict zs e v : convex_polygon zs -> 3 <= length zs -> In e (ring (length zs)) -> v < length zs -> v <> fst e -> v <> snd e -> (0 < orient (zat zs (fst e)) (zat zs (snd e)) (zat zs v))%Z.
Proof.
  intros C L I' Lv. apply ring_in in I' as [Li Ej]. set (i := fst e) in *. rewrite Ej. clear Ej. intros N1 N2.
  destruct (Nat.eq_dec (S i) (length zs)) as [Q|Q].
  - rewrite Q, Nat.mod_same in * by lia. pose proof (C 0 v i ltac:(lia) ltac:(lia) ltac:(lia)) as X. rewrite <- orient_rot' in X. exact X.
  - rewrite Nat.mod_small in * by lia. destruct (Nat.lt_ge_cases v i) as [G|G].
    + pose proof (C v i (S i) ltac:(lia) ltac:(lia) ltac:(lia)) as X. rewrite <- orient_rot in X. exact X.
    + exact (C i (S i) v ltac:(lia) ltac:(lia) ltac:(lia)).
Qed.
Lemma convex_visible zs a b c v : convex_polygon zs -> 3 <= length zs -> a < length zs -> b < length zs -> c < length zs -> v < length zs ->
  (0 < orient (zat zs a) (zat zs b) (zat zs c))%Z -> exists k p, (0 < k)%Z /\ point_in (zat zs) (a, b, c) k p /\ visible (zat zs) (ring (length zs)) v k p.
Proof.
  intros C L La Lb Lc Lv O. set (p := (fst (zat zs a) + fst (zat zs b) + fst (zat zs c), snd (zat zs a) + snd (zat zs b) + snd (zat zs c))%Z).
  exists 3%Z, p. split; [lia|].
  assert (PT : point_in (zat zs) (a, b, c) 3 p).
  { pose proof (near_vertex (zat zs a) (zat zs b) (zat zs c) 1 O ltac:(lia)) as X. cbv zeta in X. unfold point_in, p. change (1 + 2)%Z with 3%Z in X. rewrite !Z.mul_1_l in X. exact X. }
  split; [exact PT|]. intros x y Ie Nx Ny [T _].
  assert (LXY : x < length zs /\ y < length zs).
  { pose proof (ring_in _ _ Ie) as [H1 H2]. cbn [fst snd] in *. split; auto. rewrite H2. apply Nat.mod_upper_bound. lia. }
  pose proof (convex_edge_strict zs (x, y) v C L Ie Lv) as PV. cbn [fst snd] in PV. specialize (PV ltac:(auto) ltac:(auto)).
  pose proof (convex_side zs (x, y) a C L Ie La) as Sa. pose proof (convex_side zs (x, y) b C L Ie Lb) as Sb. pose proof (convex_side zs (x, y) c C L Ie Lc) as Sc. cbn [fst snd] in Sa, Sb, Sc.
  assert (SOME : (0 < orient (zat zs x) (zat zs y) (zat zs a) \/ 0 < orient (zat zs x) (zat zs y) (zat zs b) \/ 0 < orient (zat zs x) (zat zs y) (zat zs c))%Z).
  { assert (X : forall w, w < length zs -> orient (zat zs x) (zat zs y) (zat zs w) = 0%Z -> w = x \/ w = y).
    { intros w Lw Q. destruct (Nat.eq_dec w x) as [|N1]; auto. destruct (Nat.eq_dec w y) as [|N2]; auto. pose proof (convex_edge_strict zs (x, y) w C L Ie Lw) as PW. cbn [fst snd] in PW. specialize (PW N1 N2). lia. }
    destruct (Z.eq_dec (orient (zat zs x) (zat zs y) (zat zs a)) 0) as [Qa|]; [|left; lia]. destruct (Z.eq_dec (orient (zat zs x) (zat zs y) (zat zs b)) 0) as [Qb|]; [|right; left; lia].
    destruct (Z.eq_dec (orient (zat zs x) (zat zs y) (zat zs c)) 0) as [Qc|]; [|right; right; lia]. exfalso.
    apply X in Qa, Qb, Qc; auto. assert (Z0 : forall u w, orient u u w = 0%Z /\ orient u w u = 0%Z /\ orient w u u = 0%Z) by (intros [] []; repeat split; zpts; ring).
    destruct Qa as [->| ->], Qb as [->| ->], Qc as [->| ->]; revert O; first [rewrite (proj1 (Z0 _ _))|rewrite (proj1 (proj2 (Z0 _ _)))|rewrite (proj2 (proj2 (Z0 _ _)))]; lia. }
  pose proof (bary (scaled 3 (zat zs x)) (scaled 3 (zat zs y)) (scaled 3 (zat zs a)) (scaled 3 (zat zs b)) (scaled 3 (zat zs c)) p) as BY.
  unfold point_in in PT. destruct PT as (P1 & P2 & P3). rewrite !orient_scaled in BY. rewrite orient_scaled in T.
  set (oa := orient (zat zs x) (zat zs y) (zat zs a)) in *. set (ob := orient (zat zs x) (zat zs y) (zat zs b)) in *. set (oc := orient (zat zs x) (zat zs y) (zat zs c)) in *.
  set (f := orient (scaled 3 (zat zs x)) (scaled 3 (zat zs y)) p) in *.
  assert (G1 : (0 <= orient (scaled 3 (zat zs b)) (scaled 3 (zat zs c)) p * (3 * 3 * oa))%Z) by (apply Z.mul_nonneg_nonneg; lia).
  assert (G2 : (0 <= orient (scaled 3 (zat zs c)) (scaled 3 (zat zs a)) p * (3 * 3 * ob))%Z) by (apply Z.mul_nonneg_nonneg; lia).
  assert (G3 : (0 <= orient (scaled 3 (zat zs a)) (scaled 3 (zat zs b)) p * (3 * 3 * oc))%Z) by (apply Z.mul_nonneg_nonneg; lia).
  assert (FP : (0 < 3 * 3 * orient (zat zs a) (zat zs b) (zat zs c) * f)%Z).
  { rewrite BY. destruct SOME as [S1|[S1|S1]].
    - assert (0 < orient (scaled 3 (zat zs b)) (scaled 3 (zat zs c)) p * (3 * 3 * oa))%Z by (apply Z.mul_pos_pos; lia). lia.
    - assert (0 < orient (scaled 3 (zat zs c)) (scaled 3 (zat zs a)) p * (3 * 3 * ob))%Z by (apply Z.mul_pos_pos; lia). lia.
    - assert (0 < orient (scaled 3 (zat zs a)) (scaled 3 (zat zs b)) p * (3 * 3 * oc))%Z by (apply Z.mul_pos_pos; lia). lia. }
  assert (FP' : (0 < f)%Z) by (apply (sign_mul (3 * 3 * orient (zat zs a) (zat zs b) (zat zs c))); [lia|exact FP]).
  assert (0 < f * (3 * 3 * orient (zat zs x) (zat zs y) (zat zs v)))%Z by (apply Z.mul_pos_pos; lia). lia.
Qed.
(** C43 for convex polygons: no circumcircle of a returned triangle has a vertex of the polygon strictly inside *)
Theorem C43_convex_polygon_delaunay : forall zs, integer_input zs -> convex_polygon zs ->
  forall dbg, exists ids, (forall fuel, steps (length zs) <= fuel -> indices64 dbg fuel zs [] [] = Done ids) /\
    proper_cdt (length zs) (zat zs) (ring (length zs)) (seq 0 (length zs)) [] ids /\
    forall a b c v, In (a, b, c) (triples ids) -> v < length zs -> (incircle (zat zs a) (zat zs b) (zat zs c) (zat zs v) <= 0)%Z.
Proof.
  intros zs IN C dbg. assert (L : 3 <= length zs) by apply IN.
  destruct (convex_no_cap zs IN C) as [EA CUP].
  destruct (C28_integer_polygon_cdt_partial zs IN EA CUP dbg) as (ids & H1 & H2). exists ids. split; [exact H1|]. split; [exact H2|].
  intros a b c v I' Lv. destruct H2 as (FR & CD & _ & _). destruct FR as (_ & FR & _). destruct (FR a b c I') as ((La & Lb & Lc) & O).
  destruct (convex_visible zs a b c v C L La Lb Lc Lv O) as (k & p & K & PT & VIS). exact (CD a b c v k p I' Lv K PT VIS).
Qed.
Print Assumptions C43_globally_constrained_delaunay.
Print Assumptions C44_conforming.
Print Assumptions C45_no_point_lost.
Print Assumptions C43_convex_polygon_delaunay.
Print Assumptions C28_integer_inputs_cdt_partial.
Print Assumptions C43_finished_run.
Print Assumptions C43_integer_finished_run.
Print Assumptions C28_integer_polygon_cdt_partial.
