(** * PropsMoved: C49, moving and enlarging the input moves and enlarges the result; C48 for all f64 inputs *)
From Coq Require Import List Arith Bool Lia ZArith Permutation.
From Coq.Floats Require Import SpecFloat.
From Verif Require Import Base Num Shape ShapeSpec Utils Points Triangles Front Sweeper Cdt F64 Lists BuilderSpec History SortSpec Monad Traverse TraceSpec Grow
  Exact F64Exact FloatLaws Spec PropsBuilder PropsTrace PropsSafe FrontSpec Geom Mesh Setup Good Init Winding CoverRun Stokes Region PropsMesh PropsCover PropsMarks PropsRegion FillTotal Local PropsTotal PropsCup PropsTri F64Real IntSpec IntF64 IntRun IntHyp PropsInt PropsCdt PropsCdtInt PropsIntEx PropsCdtEx PropsOutcome CountAll PropsCount Unique PropsUnique Moved.
Import ListNotations.
Local Open Scope nat_scope.

(** the same triangles, by the indices of their corners: listed in any order and from any of their corners *)
Definition same_indices (ids1 ids2 : list nat) : Prop :=
  (forall a b c, In (a, b, c) (triples ids1) -> In (a, b, c) (triples ids2) \/ In (b, c, a) (triples ids2) \/ In (c, a, b) (triples ids2)) /\
  (forall a b c, In (a, b, c) (triples ids2) -> In (a, b, c) (triples ids1) \/ In (b, c, a) (triples ids1) \/ In (c, a, b) (triples ids1)).

Lemma unique_indices n z es poly holes ids1 ids2 :
  (forall i j, i < n -> j < n -> i <> j -> z i <> z j) -> general_position n z -> no_four_cocircular n z -> (forall x y, In (x, y) es -> x < n /\ y < n) ->
  proper_cdt n z es poly holes ids1 -> proper_cdt n z es poly holes ids2 -> same_indices ids1 ids2.
Proof.
  intros DI GP NC RE A B.
  assert (X : forall ids1 ids2, proper_cdt n z es poly holes ids1 -> proper_cdt n z es poly holes ids2 -> forall a b c, In (a, b, c) (triples ids1) -> In (a, b, c) (triples ids2) \/ In (b, c, a) (triples ids2) \/ In (c, a, b) (triples ids2)).
  { clear ids1 ids2 A B. intros ids1 ids2 (A1 & A2 & A3 & _) (B1 & B2 & B3 & _) a b c It.
    destruct (cdt_unique n z es poly holes ids1 n z es poly holes ids2) with (a := a) (b := b) (c := c) as (d & e & f & Iu & ST); auto.
    - intros v Lv. exists v. auto.
    - intros v Lv. exists v. auto.
    - intros x y Ie. exists x, y. auto.
    - intros x y Ie. exists x, y. auto.
    - destruct (proj1 (proj2 A1) a b c It) as ((La & Lb & Lc) & _). destruct (proj1 (proj2 B1) d e f Iu) as ((Ld & Le & Lf) & _).
      assert (EQ : forall i j, i < n -> j < n -> z i = z j -> i = j) by (intros i j Li Lj Q; destruct (Nat.eq_dec i j); [assumption|exfalso; exact (DI i j Li Lj n0 Q)]).
      destruct ST as [(Q1 & Q2 & Q3)|[(Q1 & Q2 & Q3)|(Q1 & Q2 & Q3)]]; apply EQ in Q1, Q2, Q3; auto; subst d e f; auto. }
  split; [exact (X ids1 ids2 A B)|exact (X ids2 ids1 B A)].
Qed.

(** ** C49: finished runs *)
Theorem C49_finished_runs : forall PD1 PD2 dbg1 dbg2 fuel1 fuel2 (src1 : @source F64 PD1) calls1 zs (b1 : Builder PD1) t1 cbs1 (src2 : @source F64 PD2) calls2 (b2 : Builder PD2) t2 cbs2 ue ue' K t,
  unit_ok ue -> history_points PD1 src1 calls1 = map (grid ue) zs -> integer_input zs -> no_four_cocircular (length zs) (zat zs) ->
  (** the second input has the same polygon, holes and Steiner points, K times as large and shifted by t, in a unit that may be another one *)
  (0 < K)%Z -> unit_ok ue' -> history_points PD2 src2 calls2 = map (grid ue') (map (moved K t) zs) -> in_range (map (moved K t) zs) ->
  outer_contour PD2 src2 = outer_contour PD1 src1 -> hole_contours PD2 src2 calls2 = hole_contours PD1 src1 calls1 ->
  edges_apart zs (history_edges PD1 src1 calls1) ->
  (forall c, In c (outer_contour PD1 src1 :: hole_contours PD1 src1 calls1) -> 3 <= length c) ->
  holes_inside zs (outer_contour PD1 src1) (hole_contours PD1 src1 calls1) -> loose_points_allowed zs (outer_contour PD1 src1) (hole_contours PD1 src1 calls1) ->
  builder_of PD1 src1 calls1 = Done b1 -> observed dbg1 fuel1 (build PD1 b1) = (Done t1, cbs1) -> fills_ccw (c_points (build PD1 b1)) cbs1 ->
  builder_of PD2 src2 calls2 = Done b2 -> observed dbg2 fuel2 (build PD2 b2) = (Done t2, cbs2) -> fills_ccw (c_points (build PD2 b2)) cbs2 ->
  exists ids1 ids2, triangle_list_indices dbg1 PD1 t1 = Done ids1 /\ triangle_list_indices dbg2 PD2 t2 = Done ids2 /\ same_indices ids1 ids2.
Proof.
  intros PD1 PD2 dbg1 dbg2 fuel1 fuel2 src1 calls1 zs b1 t1 cbs1 src2 calls2 b2 t2 cbs2 ue ue' K t UB HP1 IN NC KP UB' HP2 RGE EP EH EA L3 HN ST B1 O1 F1 B2 O2 F2.
  destruct (contours_range PD1 src1 calls1) as [ND RG]. rewrite HP1, map_length in RG.
  assert (RE : forall x y, In (x, y) (history_edges PD1 src1 calls1) -> x < length zs /\ y < length zs) by (intros x y; rewrite <- contours_edges; apply edges_range; exact RG).
  assert (EE : history_edges PD2 src2 calls2 = history_edges PD1 src1 calls1) by (rewrite <- !contours_edges, EP, EH; reflexivity).
  destruct (C43_integer_finished_run PD1 dbg1 fuel1 src1 calls1 ue zs b1 t1 cbs1 UB HP1 IN B1 EA O1 F1 L3 HN ST) as (ids1 & T1 & C1).
  destruct (C43_integer_finished_run PD2 dbg2 fuel2 src2 calls2 ue' (map (moved K t) zs) b2 t2 cbs2 UB' HP2 (move_integer zs K t KP RGE IN) B2) as (ids2 & T2 & C2); auto.
  - rewrite EE. apply move_apart; assumption.
  - rewrite EP, EH. exact L3.
  - rewrite EP, EH. apply move_holes; assumption.
  - rewrite EP, EH. apply move_loose; assumption.
  - exists ids1, ids2. split; [exact T1|]. split; [exact T2|]. rewrite EE, EP, EH, map_length in C2. destruct (int_gp zs IN) as [DI GP].
    apply (unique_indices (length zs) (zat zs) (history_edges PD1 src1 calls1) (outer_contour PD1 src1) (hole_contours PD1 src1 calls1)); auto.
    apply (move_cdt (length zs) (zat zs) (zat (map (moved K t) zs)) (history_edges PD1 src1 calls1) (outer_contour PD1 src1) (hole_contours PD1 src1 calls1) K t KP); auto.
    intros v Lv. apply zat_map. exact Lv.
Qed.

(** ** C49: integer inputs without a cap *)
Theorem C49_moved : forall PD1 PD2 (src1 : @source F64 PD1) calls1 zs (src2 : @source F64 PD2) calls2 ue ue' K t,
  unit_ok ue -> history_points PD1 src1 calls1 = map (grid ue) zs -> integer_input zs -> no_four_cocircular (length zs) (zat zs) ->
  (0 < K)%Z -> unit_ok ue' -> history_points PD2 src2 calls2 = map (grid ue') (map (moved K t) zs) -> in_range (map (moved K t) zs) ->
  outer_contour PD2 src2 = outer_contour PD1 src1 -> hole_contours PD2 src2 calls2 = hole_contours PD1 src1 calls1 ->
  edges_apart zs (history_edges PD1 src1 calls1) ->
  (forall p q, In (p, q) (history_edges PD1 src1 calls1) \/ In (q, p) (history_edges PD1 src1 calls1) -> ~ capped zs p q) ->
  (forall c, In c (outer_contour PD1 src1 :: hole_contours PD1 src1 calls1) -> 3 <= length c) ->
  holes_inside zs (outer_contour PD1 src1) (hole_contours PD1 src1 calls1) -> loose_points_allowed zs (outer_contour PD1 src1) (hole_contours PD1 src1 calls1) ->
  exists b1 b2, builder_of PD1 src1 calls1 = Done b1 /\ builder_of PD2 src2 calls2 = Done b2 /\
  forall dbg1 dbg2, exists t1 t2 ids1 ids2,
    (forall fuel, steps (length zs) <= fuel -> triangulate dbg1 PD1 fuel (build PD1 b1) = Done t1) /\ triangle_list_indices dbg1 PD1 t1 = Done ids1 /\
    (forall fuel, steps (length zs) <= fuel -> triangulate dbg2 PD2 fuel (build PD2 b2) = Done t2) /\ triangle_list_indices dbg2 PD2 t2 = Done ids2 /\
    same_indices ids1 ids2.
Proof.
  intros PD1 PD2 src1 calls1 zs src2 calls2 ue ue' K t UB HP1 IN NC KP UB' HP2 RGE EP EH EA CU L3 HN ST.
  destruct (contours_range PD1 src1 calls1) as [ND RG]. rewrite HP1, map_length in RG.
  assert (RE : forall x y, In (x, y) (history_edges PD1 src1 calls1) -> x < length zs /\ y < length zs) by (intros x y; rewrite <- contours_edges; apply edges_range; exact RG).
  assert (EE : history_edges PD2 src2 calls2 = history_edges PD1 src1 calls1) by (rewrite <- !contours_edges, EP, EH; reflexivity).
  destruct (C28_integer_inputs_cdt_partial PD1 src1 calls1 ue zs UB HP1 IN EA CU L3 HN ST) as (b1 & B1 & R1).
  destruct (C28_integer_inputs_cdt_partial PD2 src2 calls2 ue' (map (moved K t) zs) UB' HP2 (move_integer zs K t KP RGE IN)) as (b2 & B2 & R2).
  - rewrite EE. apply move_apart; assumption.
  - rewrite EE. intros p q Ie Q. apply (CU p q Ie). assert (p < length zs /\ q < length zs) as [Lp Lq] by (destruct Ie as [Ie|Ie]; apply RE in Ie; tauto). exact (move_capped zs K t KP p q Lp Lq Q).
  - rewrite EP, EH. exact L3.
  - rewrite EP, EH. apply move_holes; assumption.
  - rewrite EP, EH. apply move_loose; assumption.
  - exists b1, b2. split; [exact B1|]. split; [exact B2|]. intros dbg1 dbg2. destruct (R1 dbg1) as (t1 & ids1 & T1 & X1 & C1). destruct (R2 dbg2) as (t2 & ids2 & T2 & X2 & C2).
    exists t1, t2, ids1, ids2. split; [exact T1|]. split; [exact X1|]. split; [intro fuel; rewrite <- (map_length (moved K t) zs); apply T2|]. split; [exact X2|].
    rewrite EE, EP, EH, map_length in C2. destruct (int_gp zs IN) as [DI GP].
    apply (unique_indices (length zs) (zat zs) (history_edges PD1 src1 calls1) (outer_contour PD1 src1) (hole_contours PD1 src1 calls1)); auto.
    apply (move_cdt (length zs) (zat zs) (zat (map (moved K t) zs)) (history_edges PD1 src1 calls1) (outer_contour PD1 src1) (hole_contours PD1 src1 calls1) K t KP); auto.
    intros v Lv. apply zat_map. exact Lv.
Qed.
(** one polygon: [triangle_list_indices] gives the same index triples before and after the move *)
Theorem C49_polygon : forall zs K t, integer_input zs -> no_four_cocircular (length zs) (zat zs) -> (0 < K)%Z -> in_range (map (moved K t) zs) ->
  edges_apart zs (ring (length zs)) -> (forall p q, In (p, q) (ring (length zs)) \/ In (q, p) (ring (length zs)) -> ~ capped zs p q) ->
  forall dbg1 dbg2, exists ids1 ids2, forall fuel, steps (length zs) <= fuel ->
    indices64 dbg1 fuel zs [] [] = Done ids1 /\ indices64 dbg2 fuel (map (moved K t) zs) [] [] = Done ids2 /\ same_indices ids1 ids2.
Proof.
  intros zs K t IN NC KP RGE EA CU dbg1 dbg2.
  assert (RG : forall c v, In c [seq 0 (length zs)] -> In v c -> v < length zs) by (intros c v [<-|[]] Iv; apply in_seq in Iv; lia).
  assert (RE : forall x y, In (x, y) (ring (length zs)) -> x < length zs /\ y < length zs).
  { intros x y Ie. apply (edges_range [seq 0 (length zs)] (length zs) RG). cbn [flat_map]. rewrite app_nil_r, cyc_seq. exact Ie. }
  destruct (C28_integer_polygon_cdt_partial zs IN EA CU dbg1) as (ids1 & H1 & C1).
  destruct (C28_integer_polygon_cdt_partial (map (moved K t) zs) (move_integer zs K t KP RGE IN)) with (dbg := dbg2) as (ids2 & H2 & C2).
  - rewrite map_length. apply move_apart; assumption.
  - rewrite map_length. intros p q Ie Q. apply (CU p q Ie). assert (p < length zs /\ q < length zs) as [Lp Lq] by (destruct Ie as [Ie|Ie]; apply RE in Ie; tauto). exact (move_capped zs K t KP p q Lp Lq Q).
  - exists ids1, ids2. intros fuel LE. split; [apply H1; exact LE|]. split; [apply H2; rewrite map_length; exact LE|]. rewrite map_length in C2. destruct (int_gp zs IN) as [DI GP].
    apply (unique_indices (length zs) (zat zs) (ring (length zs)) (seq 0 (length zs)) []); auto.
    apply (move_cdt (length zs) (zat zs) (zat (map (moved K t) zs)) (ring (length zs)) (seq 0 (length zs)) [] K t KP); auto. intros v Lv. apply zat_map. exact Lv.
Qed.
(** a convex polygon: no hypothesis about caps *)
Theorem C49_convex_polygon : forall zs K t, integer_input zs -> convex_polygon zs -> no_four_cocircular (length zs) (zat zs) -> (0 < K)%Z -> in_range (map (moved K t) zs) ->
  forall dbg1 dbg2, exists ids1 ids2, forall fuel, steps (length zs) <= fuel ->
    indices64 dbg1 fuel zs [] [] = Done ids1 /\ indices64 dbg2 fuel (map (moved K t) zs) [] [] = Done ids2 /\ same_indices ids1 ids2.
Proof. intros zs K t IN C NC KP RGE. destruct (convex_no_cap zs IN C) as [EA CU]. apply C49_polygon; assumption. Qed.

(** the star, a thousand times as large and moved to the left and up *)
Example star_moved : in_range (map (moved 1000 (-40000, 3)%Z) star) /\ forall dbg, exists ids1 ids2, forall fuel, steps 8 <= fuel ->
    indices64 dbg fuel star [] [] = Done ids1 /\ indices64 dbg fuel (map (moved 1000 (-40000, 3)%Z) star) [] [] = Done ids2 /\ same_indices ids1 ids2.
Proof.
  assert (R : in_range (map (moved 1000 (-40000, 3)%Z) star)) by (repeat (constructor; [cbn; lia|]); constructor).
  split; [exact R|]. intro dbg. destruct star_ok as (H1 & H2 & H3 & _).
  assert (NC : no_four_cocircular 8 (zat star)) by (apply (cocircularb_ok star); vm_compute; reflexivity).
  exact (C49_polygon star 1000 (-40000, 3)%Z H1 NC ltac:(lia) R H2 H3 dbg dbg).
Qed.

(** the star, and the star shifted, in another unit: scaled by 1/1024 *)
Example star_shrunk : exists b1 b2, builder_of unit (grid_src 0 star) [] = Done b1 /\ builder_of unit (grid_src (-10) (map (moved 1 (70, 1)%Z) star)) [] = Done b2 /\
  forall dbg1 dbg2, exists t1 t2 ids1 ids2,
    (forall fuel, steps 8 <= fuel -> triangulate dbg1 unit fuel (build unit b1) = Done t1) /\ triangle_list_indices dbg1 unit t1 = Done ids1 /\
    (forall fuel, steps 8 <= fuel -> triangulate dbg2 unit fuel (build unit b2) = Done t2) /\ triangle_list_indices dbg2 unit t2 = Done ids2 /\ same_indices ids1 ids2.
Proof.
  destruct star_ok as (H1 & H2 & H3 & _). destruct (grid_polygon 0 star) as (E1 & E2 & E3 & E4). destruct (grid_polygon (-10) (map (moved 1 (70, 1)%Z) star)) as (G1 & G2 & G3 & G4).
  assert (NC : no_four_cocircular 8 (zat star)) by (apply (cocircularb_ok star); vm_compute; reflexivity).
  apply (C49_moved unit unit (grid_src 0 star) [] star (grid_src (-10) (map (moved 1 (70, 1)%Z) star)) [] 0%Z (-10)%Z 1%Z (70, 1)%Z unit_0); auto.
  - lia.
  - split; discriminate.
  - repeat (constructor; [cbn; lia|]). constructor.
  - intros c [<-|[]]. cbn. lia.
  - intros k p h _ [].
  - intros v Lv Nv. exfalso. apply (Nv _ (or_introl eq_refl)). change (In v (seq 0 8)). change (v < 8) in Lv. apply in_seq. lia.
Qed.

(** ** C48 for arbitrary f64 coordinates *)
(** the exact coordinates of the first n points, in units of 2^-1074 *)
Definition coords (ps : @Points F64) (n : nat) : list zpt := map (zc ps) (seq 0 n).
Lemma zat_coords ps n v : v < n -> zat (coords ps n) v = zc ps v.
Proof.
  intro L. unfold zat, coords. rewrite (nth_indep _ (0, 0)%Z (zc ps 0)) by (rewrite map_length, seq_length; exact L). rewrite (map_nth (zc ps)), seq_nth by exact L. reflexivity.
Qed.
Lemma moved_id p : moved 1 (0, 0)%Z p = p. Proof. destruct p. unfold moved. cbn [fst snd]. f_equal; ring. Qed.
Lemma same_cdt_gen zs1 zs2 poly1 poly2 holes1 holes2 ids1 ids2 : same_description zs1 poly1 holes1 zs2 poly2 holes2 ->
  general_position (length zs1) (zat zs1) -> general_position (length zs2) (zat zs2) -> no_four_cocircular (length zs1) (zat zs1) ->
  (forall c v, In c (poly1 :: holes1) -> In v c -> v < length zs1) -> (forall c v, In c (poly2 :: holes2) -> In v c -> v < length zs2) ->
  proper_cdt (length zs1) (zat zs1) (flat_map Stokes.cyc (poly1 :: holes1)) poly1 holes1 ids1 -> proper_cdt (length zs2) (zat zs2) (flat_map Stokes.cyc (poly2 :: holes2)) poly2 holes2 ids2 ->
  same_triangles zs1 ids1 zs2 ids2.
Proof.
  intros SD G1 G2 NC1 RG1 RG2 (A1 & A2 & A3 & _) (B1 & B2 & B3 & _). pose proof (same_description_sym _ _ _ _ _ _ SD) as SD'. pose proof SD as (P & _). pose proof (cocircular_perm _ _ P NC1) as NC2.
  split; intros a b c It.
  - apply (cdt_unique (length zs1) (zat zs1) (flat_map Stokes.cyc (poly1 :: holes1)) poly1 holes1 ids1 (length zs2) (zat zs2) (flat_map Stokes.cyc (poly2 :: holes2)) poly2 holes2 ids2); auto.
    + apply edges_range. exact RG1.
    + apply edges_range. exact RG2.
    + exact (carry_points _ _ _ _ _ _ SD').
    + exact (carry_points _ _ _ _ _ _ SD).
    + exact (carry_edges _ _ _ _ _ _ SD').
    + exact (carry_edges _ _ _ _ _ _ SD).
    + intros k p _. exact (carry_region _ _ _ _ _ _ SD' k p).
  - apply (cdt_unique (length zs2) (zat zs2) (flat_map Stokes.cyc (poly2 :: holes2)) poly2 holes2 ids2 (length zs1) (zat zs1) (flat_map Stokes.cyc (poly1 :: holes1)) poly1 holes1 ids1); auto.
    + apply edges_range. exact RG2.
    + apply edges_range. exact RG1.
    + exact (carry_points _ _ _ _ _ _ SD).
    + exact (carry_points _ _ _ _ _ _ SD').
    + exact (carry_edges _ _ _ _ _ _ SD).
    + exact (carry_edges _ _ _ _ _ _ SD').
    + intros k p _. exact (carry_region _ _ _ _ _ _ SD k p).
Qed.
Section F64Run.
Variables (PD : Type) (dbg : bool) (fuel : nat) (src : @source F64 PD) (calls : list (@call F64 PD)) (b : @Builder F64 PD) (t : @Triangles F64 PD) (cbs : list (@callback F64)).
Notation ps := (c_points (build PD b)).
Notation poly := (outer_contour PD src).
Notation holes := (hole_contours PD src calls).
Notation n := (length (history_points PD src calls)).
(** what C43 asks of an input and a run *)
Definition good_run : Prop :=
  builder_of PD src calls = Done b /\ proper ps /\ plane_input ps (history_edges PD src calls) /\ observed dbg fuel (build PD b) = (Done t, cbs) /\ fills_ccw ps cbs /\
  (forall c, In c (poly :: holes) -> 3 <= length c) /\ holes_nested ps poly holes /\ steiner_allowed PD ps src calls.
Lemma good_run_cdt : good_run -> exists ids, triangle_list_indices dbg PD t = Done ids /\ general_position (length (coords ps n)) (zat (coords ps n)) /\
  (forall c v, In c (poly :: holes) -> In v c -> v < length (coords ps n)) /\
  proper_cdt (length (coords ps n)) (zat (coords ps n)) (flat_map Stokes.cyc (poly :: holes)) poly holes ids.
Proof using.
  intros (B & PP & PI & O & F & L3 & HN & ST). destruct (C43_finished_run PD dbg fuel src calls b t cbs B PP PI O F L3 HN ST) as (ids & T & C). exists ids. split; [exact T|].
  assert (LC : length (coords ps n) = n) by (unfold coords; rewrite map_length, seq_length; reflexivity). rewrite LC. destruct (contours_range PD src calls) as [ND RG].
  pose proof (pr_head ps PP) as PH. assert (HD : ps_head ps = n) by (pose proof (History.builder_of_points _ _ _ _ B) as (B1 & _ & _); rewrite <- B1; reflexivity).
  split; [|split; [exact RG|]].
  - intros i j k Li Lj Lk. rewrite !zat_coords by assumption. apply (pi_col _ _ PI); lia.
  - apply (move_cdt n (zat (coords ps n)) (zc ps) (flat_map Stokes.cyc (poly :: holes)) poly holes 1 (0, 0)%Z).
    + lia.
    + intros v Lv. rewrite moved_id, zat_coords by exact Lv. reflexivity.
    + exact RG.
    + apply edges_range. exact RG.
    + rewrite contours_edges. exact C.
Qed.
End F64Run.
(** two finished runs without inverted triangles on any two descriptions of a region whose corners are f64 points *)
Theorem C48_f64_finished_runs : forall PD1 PD2 dbg1 dbg2 fuel1 fuel2 (src1 : @source F64 PD1) calls1 (b1 : @Builder F64 PD1) t1 cbs1 (src2 : @source F64 PD2) calls2 (b2 : @Builder F64 PD2) t2 cbs2,
  good_run PD1 dbg1 fuel1 src1 calls1 b1 t1 cbs1 -> good_run PD2 dbg2 fuel2 src2 calls2 b2 t2 cbs2 ->
  let zs1 := coords (c_points (build PD1 b1)) (length (history_points PD1 src1 calls1)) in let zs2 := coords (c_points (build PD2 b2)) (length (history_points PD2 src2 calls2)) in
  same_description zs1 (outer_contour PD1 src1) (hole_contours PD1 src1 calls1) zs2 (outer_contour PD2 src2) (hole_contours PD2 src2 calls2) ->
  no_four_cocircular (length zs1) (zat zs1) ->
  exists ids1 ids2, triangle_list_indices dbg1 PD1 t1 = Done ids1 /\ triangle_list_indices dbg2 PD2 t2 = Done ids2 /\ same_triangles zs1 ids1 zs2 ids2.
Proof.
  intros PD1 PD2 dbg1 dbg2 fuel1 fuel2 src1 calls1 b1 t1 cbs1 src2 calls2 b2 t2 cbs2 G1 G2 zs1 zs2 SD NC.
  destruct (good_run_cdt _ _ _ _ _ _ _ _ G1) as (ids1 & T1 & P1 & R1 & C1). destruct (good_run_cdt _ _ _ _ _ _ _ _ G2) as (ids2 & T2 & P2 & R2 & C2).
  exists ids1, ids2. split; [exact T1|]. split; [exact T2|].
  apply (same_cdt_gen zs1 zs2 (outer_contour PD1 src1) (outer_contour PD2 src2) (hole_contours PD1 src1 calls1) (hole_contours PD2 src2 calls2)); auto.
Qed.
(** both descriptions of the triangle with a hole give such runs *)
Lemma int_good_run PD dbg (src : @source F64 PD) calls ue zs : unit_ok ue -> history_points PD src calls = map (grid ue) zs -> integer_input zs ->
  edges_apart zs (history_edges PD src calls) -> (forall p q, In (p, q) (history_edges PD src calls) \/ In (q, p) (history_edges PD src calls) -> ~ capped zs p q) ->
  (forall c, In c (outer_contour PD src :: hole_contours PD src calls) -> 3 <= length c) -> holes_inside zs (outer_contour PD src) (hole_contours PD src calls) ->
  loose_points_allowed zs (outer_contour PD src) (hole_contours PD src calls) ->
  exists b fuel t cbs, good_run PD dbg fuel src calls b t cbs /\ coords (c_points (build PD b)) (length (history_points PD src calls)) = map (scaled (2 ^ (1074 + ue))) zs.
Proof.
  intros UB HP IN EA CUP L3 HN ST. destruct (int_builder PD src calls ue zs UB HP IN L3) as [b B].
  assert (NE : history_points PD src calls <> []) by (rewrite HP; destruct IN as (L & _); destruct zs; [cbn in L; lia|discriminate]).
  pose proof (i_plane PD src calls ue zs UB HP IN b B EA) as PI. pose proof (plane_planar PD src calls b F64_eq_not_lt F64_eq_sym B PI) as PN.
  destruct (C28_cup_inputs_complete_partial PD dbg src calls b B NE (i_proper PD src calls ue zs UB HP IN b B) PN (i_eps PD src calls ue zs UB HP IN b B) (i_fills PD src calls ue zs UB HP IN b B) (i_cap PD src calls ue zs UB HP IN b B CUP)) as (t & cbs & H).
  destruct (H _ (le_n _)) as [O F]. exists b, (steps (length (history_points PD src calls))), t, cbs. split.
  - split; [exact B|]. split; [exact (i_proper PD src calls ue zs UB HP IN b B)|]. split; [exact PI|]. split; [exact O|]. split; [exact F|]. split; [exact L3|].
    split; [exact (i_nested PD src calls ue zs UB HP IN b B HN)|exact (i_steiner PD src calls ue zs UB HP IN b B ST)].
  - rewrite HP, map_length. unfold coords. rewrite <- (map_nth_seq (0, 0)%Z zs) at 2. rewrite map_map. apply map_ext_in. intros v Iv. apply in_seq in Iv. apply (i_zc PD src calls ue zs UB HP IN b B v). exact (proj2 Iv).
Qed.
Lemma loop_of_map f zs c : (forall v, In v c -> v < length zs) -> loop_of (map f zs) c = map f (loop_of zs c).
Proof. intro H. unfold loop_of. rewrite map_map. apply map_ext_in. intros v Iv. apply zat_map. apply H. exact Iv. Qed.
Lemma same_loop_map f l l' : same_loop l l' -> same_loop (map f l) (map f l').
Proof. intros (a & b & -> & [->| ->]); exists (map f a), (map f b); rewrite ?map_rev, !map_app; auto. Qed.
Lemma same_description_map f zs1 poly1 holes1 zs2 poly2 holes2 :
  (forall c v, In c (poly1 :: holes1) -> In v c -> v < length zs1) -> (forall c v, In c (poly2 :: holes2) -> In v c -> v < length zs2) ->
  same_description zs1 poly1 holes1 zs2 poly2 holes2 -> same_description (map f zs1) poly1 holes1 (map f zs2) poly2 holes2.
Proof.
  intros R1 R2 (P & L & H1 & H2). split; [apply Permutation_map; exact P|]. split.
  - rewrite !loop_of_map; [apply same_loop_map; exact L|intros v; apply R2; left; reflexivity|intros v; apply R1; left; reflexivity].
  - assert (E : forall zs hs, (forall c v, In c hs -> In v c -> v < length zs) -> map (loop_of (map f zs)) hs = map (map f) (map (loop_of zs) hs)).
    { intros zs hs R. rewrite map_map. apply map_ext_in. intros c Ic. apply loop_of_map. intros v. apply R. exact Ic. }
    rewrite !E by (intros c v Ic; first [apply R1; right; exact Ic|apply R2; right; exact Ic]). split.
    + intros h Ih. apply in_map_iff in Ih as (h0 & <- & Ih). destruct (H1 h0 Ih) as (h' & A & B). exists (map f h'). split; [apply in_map; exact A|apply same_loop_map; exact B].
    + intros h Ih. apply in_map_iff in Ih as (h0 & <- & Ih). destruct (H2 h0 Ih) as (h' & A & B). exists (map f h'). split; [apply in_map; exact A|apply same_loop_map; exact B].
Qed.
Lemma cocircular_scaled K zs : (0 < K)%Z -> no_four_cocircular (length zs) (zat zs) -> no_four_cocircular (length (map (scaled K) zs)) (zat (map (scaled K) zs)).
Proof.
  intros KP H a b c d La Lb Lc Ld N1 N2 N3 N4 N5 N6. rewrite map_length in La, Lb, Lc, Ld. rewrite !zat_map, incircle_scaled by assumption. specialize (H a b c d La Lb Lc Ld N1 N2 N3 N4 N5 N6).
  intro Q. apply H. assert (0 < K * K * (K * K))%Z by (repeat apply Z.mul_pos_pos; assumption). apply Z.mul_eq_0 in Q as [Q|Q]; [lia|exact Q].
Qed.
Example annulus_good_runs : exists b1 fuel1 t1 cbs1 b2 fuel2 t2 cbs2, good_run unit true fuel1 hole_src hole_calls b1 t1 cbs1 /\ good_run unit true fuel2 hole_src' hole_calls' b2 t2 cbs2 /\
  let zs1 := coords (c_points (build unit b1)) (length (history_points unit hole_src hole_calls)) in let zs2 := coords (c_points (build unit b2)) (length (history_points unit hole_src' hole_calls')) in
  same_description zs1 (outer_contour unit hole_src) (hole_contours unit hole_src hole_calls) zs2 (outer_contour unit hole_src') (hole_contours unit hole_src' hole_calls') /\ no_four_cocircular (length zs1) (zat zs1).
Proof.
  destruct annulus_ok as (H1 & H2 & H3 & H4 & H5 & H6 & H7). pose proof annulus_description as SD. pose proof SD as (P & _).
  destruct (int_good_run unit true hole_src hole_calls 0%Z annulus unit_0 H1 H2 H3 H4 H5 H6 H7) as (b1 & f1 & t1 & c1 & G1 & E1).
  destruct (contours_range unit hole_src hole_calls) as [ND1 RG1]. rewrite H1, map_length in RG1.
  destruct (contours_range unit hole_src' hole_calls') as [ND2 RG2]. change (length (history_points unit hole_src' hole_calls')) with (length annulus') in RG2.
  pose proof (carry_integer _ _ P H2) as IN2. rewrite <- contours_edges in H3, H4. pose proof (carry_apart _ _ _ _ _ _ SD H3) as EA2. pose proof (carry_caps _ _ _ _ _ _ SD H4) as CU2. rewrite contours_edges in EA2, CU2.
  destruct (int_good_run unit true hole_src' hole_calls' 0%Z annulus' unit_0 eq_refl IN2 EA2 CU2 (carry_length _ _ _ _ _ _ SD H5) (carry_holes _ _ _ _ _ _ SD IN2 ND2 RG2 H5 H6) (carry_loose _ _ _ _ _ _ SD IN2 ND2 RG2 H5 H7)) as (b2 & f2 & t2 & c2 & G2 & E2).
  exists b1, f1, t1, c1, b2, f2, t2, c2. split; [exact G1|]. split; [exact G2|]. cbv zeta. rewrite E1, E2. split.
  - apply same_description_map; assumption.
  - apply cocircular_scaled; [apply (KK_pos 0 unit_0)|]. apply cocircularb_ok. vm_compute. reflexivity.
Qed.
Print Assumptions C49_finished_runs.
Print Assumptions C49_moved.
Print Assumptions C49_polygon.
Print Assumptions C49_convex_polygon.
Print Assumptions C48_f64_finished_runs.
