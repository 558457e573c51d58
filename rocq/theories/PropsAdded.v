(** * PropsAdded: C55, adding points changes only the triangles around them *)
From Coq Require Import List Arith Bool Lia ZArith Permutation.
From Coq.Floats Require Import SpecFloat.
From Verif Require Import Base Num Shape ShapeSpec Utils Points Triangles Front Sweeper Cdt F64 Lists BuilderSpec History SortSpec Monad Traverse TraceSpec Grow
  Exact F64Exact FloatLaws Spec PropsBuilder PropsTrace PropsSafe FrontSpec Geom Mesh Setup Good Init Winding CoverRun Stokes Region PropsMesh PropsCover PropsMarks PropsRegion FillTotal Local PropsTotal PropsCup PropsTri F64Real IntSpec IntF64 IntRun IntHyp PropsInt PropsCdt PropsCdtInt PropsIntEx PropsCdtEx PropsOutcome CountAll PropsCount Unique PropsUnique Moved PropsMoved Turned PropsTurned.
Import ListNotations.
Local Open Scope nat_scope.

(** some point from number n1 on that can be seen from inside the triangle is strictly inside its circumcircle *)
Definition disturbed (zs : list zpt) (es : list (nat * nat)) (n1 : nat) (t : nat * nat * nat) : Prop := exists v k p, n1 <= v < length zs /\ (0 < k)%Z /\
  point_in (zat zs) t k p /\ visible (zat zs) es v k p /\ let '(a, b, c) := t in (0 < incircle (zat zs a) (zat zs b) (zat zs c) (zat zs v))%Z.
(** ids2 differs from ids1 only around the points from number n1 on: a triangle of ids1 goes exactly if it is disturbed,
    and every triangle of ids2 without an added corner was there before *)
Definition changed_locally (zs : list zpt) (es : list (nat * nat)) (n1 : nat) (ids1 ids2 : list nat) : Prop :=
  (forall t, In t (triples ids1) -> listed t ids2 <-> ~ disturbed zs es n1 t) /\
  (forall a b c, In (a, b, c) (triples ids2) -> a < n1 -> b < n1 -> c < n1 -> listed (a, b, c) ids1).

Lemma zat_app1 zs xs v : v < length zs -> zat (zs ++ xs) v = zat zs v.
Proof. intro L. unfold zat. apply app_nth1. exact L. Qed.
Lemma added_lists zs xs poly holes ids1 ids2 : general_position (length (zs ++ xs)) (zat (zs ++ xs)) -> no_four_cocircular (length (zs ++ xs)) (zat (zs ++ xs)) ->
  (forall c v, In c (poly :: holes) -> In v c -> v < length zs) ->
  proper_cdt (length zs) (zat zs) (flat_map Stokes.cyc (poly :: holes)) poly holes ids1 -> proper_cdt (length (zs ++ xs)) (zat (zs ++ xs)) (flat_map Stokes.cyc (poly :: holes)) poly holes ids2 ->
  changed_locally (zs ++ xs) (flat_map Stokes.cyc (poly :: holes)) (length zs) ids1 ids2.
Proof.
  intros GP NC RG C1 C2.
  assert (LN : length zs <= length (zs ++ xs)) by (rewrite app_length; lia).
  assert (C1' : proper_cdt (length zs) (zat (zs ++ xs)) (flat_map Stokes.cyc (poly :: holes)) poly holes ids1).
  { apply (move_cdt (length zs) (zat (zs ++ xs)) (zat zs) (flat_map Stokes.cyc (poly :: holes)) poly holes 1 (0, 0)%Z); auto; [lia| |apply edges_range; exact RG].
    intros v Lv. rewrite moved_id. symmetry. apply zat_app1. exact Lv. }
  apply proper_good in C1', C2. split.
  - intros [[a b] c] I'. split.
    + intros L (v & k & p & Lv & K0 & P & V & IC). pose proof (stays_empty _ _ _ _ _ C2 a b c v k p L (proj2 Lv) K0 P V). lia.
    + intro ND. apply (triangle_stays _ _ _ _ _ _ _ LN GP NC RG C1' C2 a b c I'). intros v k p Lv K0 P V.
      destruct (Z_lt_le_dec 0 (incircle (zat (zs ++ xs) a) (zat (zs ++ xs) b) (zat (zs ++ xs) c) (zat (zs ++ xs) v))) as [Q|Q]; [|exact Q]. exfalso. apply ND. exists v, k, p. auto.
  - intros a b c I' La Lb Lc. exact (triangle_old _ _ _ _ _ _ _ LN GP NC RG C1' C2 a b c I' La Lb Lc).
Qed.

(** ** C55: finished runs on any f64 coordinates *)
Theorem C55_f64_finished_runs : forall PD1 PD2 dbg1 dbg2 fuel1 fuel2 (src1 : @source F64 PD1) calls1 (b1 : @Builder F64 PD1) t1 cbs1 (src2 : @source F64 PD2) calls2 (b2 : @Builder F64 PD2) t2 cbs2 xs,
  good_run PD1 dbg1 fuel1 src1 calls1 b1 t1 cbs1 -> good_run PD2 dbg2 fuel2 src2 calls2 b2 t2 cbs2 ->
  outer_contour PD2 src2 = outer_contour PD1 src1 -> hole_contours PD2 src2 calls2 = hole_contours PD1 src1 calls1 ->
  let zs1 := coords (c_points (build PD1 b1)) (length (history_points PD1 src1 calls1)) in let zs2 := coords (c_points (build PD2 b2)) (length (history_points PD2 src2 calls2)) in
  zs2 = zs1 ++ xs -> no_four_cocircular (length zs2) (zat zs2) ->
  exists ids1 ids2, triangle_list_indices dbg1 PD1 t1 = Done ids1 /\ triangle_list_indices dbg2 PD2 t2 = Done ids2 /\ changed_locally zs2 (history_edges PD1 src1 calls1) (length zs1) ids1 ids2.
Proof.
  intros PD1 PD2 dbg1 dbg2 fuel1 fuel2 src1 calls1 b1 t1 cbs1 src2 calls2 b2 t2 cbs2 xs G1 G2 EP EH zs1 zs2 E NC.
  destruct (good_run_cdt _ _ _ _ _ _ _ _ G1) as (ids1 & T1 & P1 & R1 & C1). destruct (good_run_cdt _ _ _ _ _ _ _ _ G2) as (ids2 & T2 & P2 & R2 & C2).
  exists ids1, ids2. split; [exact T1|]. split; [exact T2|]. fold zs1 in P1, R1, C1. fold zs2 in P2, C2. rewrite EP, EH in C2. rewrite <- contours_edges. rewrite E in *.
  apply added_lists; assumption.
Qed.

(** ** C55: integer inputs *)
Section AddInt.
Variables zs xs : list zpt.
Notation zs2 := (zs ++ xs).
Lemma added_apart es : (forall x y, In (x, y) es -> x < length zs /\ y < length zs) -> edges_apart zs es -> edges_apart zs2 es.
Proof.
  intros RE EA [x y] [u w] J1 J2. cbn [fst snd]. destruct (RE x y J1), (RE u w J2). rewrite !zat_app1 by assumption. exact (EA (x, y) (u, w) J1 J2).
Qed.
Lemma added_capped p q : p < length zs -> q < length zs -> capped zs p q -> capped zs2 p q.
Proof.
  intros Lp Lq (C1 & C2 & u & v & w & Lu & Lv & Lw & R). unfold capped. rewrite !(zat_app1 zs xs) by assumption. split; [exact C1|]. split; [exact C2|]. exists u, v, w. rewrite app_length.
  rewrite !(zat_app1 zs xs) by assumption. do 3 (split; [lia|]). exact R.
Qed.
Lemma added_holes poly holes : (forall c v, In c (poly :: holes) -> In v c -> v < length zs) -> holes_inside zs poly holes -> holes_inside zs2 poly holes.
Proof.
  intros RG H k p h K0 Ih W.
  assert (E : forall c, In c (poly :: holes) -> wind (fun v => scaled k (zat zs2 v)) c p = wind (fun v => scaled k (zat zs v)) c p).
  { intros c Ic. apply wind_ext. intros v Iv. rewrite zat_app1 by (eapply RG; eauto). reflexivity. }
  rewrite E in W by (right; exact Ih). destruct (H k p h K0 Ih W) as [A B]. split; [rewrite E by (left; reflexivity); exact A|]. intros h' Ih' N. rewrite E by (right; exact Ih'). apply B; assumption.
Qed.
End AddInt.
Theorem C55_added : forall PD1 PD2 (src1 : @source F64 PD1) calls1 zs (src2 : @source F64 PD2) calls2 xs ue1 ue2,
  unit_ok ue1 -> history_points PD1 src1 calls1 = map (grid ue1) zs -> integer_input zs -> unit_ok ue2 -> history_points PD2 src2 calls2 = map (grid ue2) (zs ++ xs) -> integer_input (zs ++ xs) ->
  no_four_cocircular (length (zs ++ xs)) (zat (zs ++ xs)) ->
  outer_contour PD2 src2 = outer_contour PD1 src1 -> hole_contours PD2 src2 calls2 = hole_contours PD1 src1 calls1 ->
  (forall c, In c (outer_contour PD1 src1 :: hole_contours PD1 src1 calls1) -> 3 <= length c) ->
  let es := history_edges PD1 src1 calls1 in
  edges_apart zs es -> (forall p q, In (p, q) es \/ In (q, p) es -> ~ capped (zs ++ xs) p q) ->
  holes_inside zs (outer_contour PD1 src1) (hole_contours PD1 src1 calls1) ->
  loose_points_allowed zs (outer_contour PD1 src1) (hole_contours PD1 src1 calls1) -> loose_points_allowed (zs ++ xs) (outer_contour PD1 src1) (hole_contours PD1 src1 calls1) ->
  exists b1 b2, builder_of PD1 src1 calls1 = Done b1 /\ builder_of PD2 src2 calls2 = Done b2 /\
  forall dbg1 dbg2, exists t1 t2 ids1 ids2,
    (forall fuel, steps (length zs) <= fuel -> triangulate dbg1 PD1 fuel (build PD1 b1) = Done t1) /\ triangle_list_indices dbg1 PD1 t1 = Done ids1 /\
    (forall fuel, steps (length (zs ++ xs)) <= fuel -> triangulate dbg2 PD2 fuel (build PD2 b2) = Done t2) /\ triangle_list_indices dbg2 PD2 t2 = Done ids2 /\
    changed_locally (zs ++ xs) es (length zs) ids1 ids2.
Proof.
  intros PD1 PD2 src1 calls1 zs src2 calls2 xs ue1 ue2 U1 HP1 IN1 U2 HP2 IN2 NC EP EH L3 es EA CU HI LP1 LP2.
  destruct (contours_range PD1 src1 calls1) as [ND RG]. rewrite HP1, map_length in RG.
  assert (EE : history_edges PD2 src2 calls2 = es) by (unfold es; rewrite <- !contours_edges, EP, EH; reflexivity).
  assert (RE : forall x y, In (x, y) es -> x < length zs /\ y < length zs) by (intros x y; unfold es; rewrite <- contours_edges; apply edges_range; exact RG).
  destruct (C28_integer_inputs_cdt_partial PD1 src1 calls1 ue1 zs U1 HP1 IN1 EA) as (b1 & B1 & R1); auto.
  { intros p q I' Q. apply (CU p q I'). assert (p < length zs /\ q < length zs) as [Lp Lq] by (destruct I' as [I'|I']; apply RE in I'; tauto). apply added_capped; assumption. }
  destruct (C28_integer_inputs_cdt_partial PD2 src2 calls2 ue2 (zs ++ xs) U2 HP2 IN2) as (b2 & B2 & R2); rewrite ?EE, ?EP, ?EH; auto.
  - apply added_apart; assumption.
  - apply added_holes; assumption.
  - exists b1, b2. split; [exact B1|]. split; [exact B2|]. intros dbg1 dbg2. destruct (R1 dbg1) as (t1 & ids1 & T1 & X1 & C1). destruct (R2 dbg2) as (t2 & ids2 & T2 & X2 & C2).
    exists t1, t2, ids1, ids2. split; [exact T1|]. split; [exact X1|]. split; [exact T2|]. split; [exact X2|].
    rewrite EE, EP, EH in C2. unfold es in C2 |- *. rewrite <- contours_edges in C1, C2 |- *. destruct (int_gp _ IN2) as [_ GP]. apply added_lists; assumption.
Qed.
(** the builder call that adds Steiner points at the end *)
Lemma steiner_contours PD (src : @source F64 PD) calls s : hole_contours PD src (calls ++ [CSteiners PD s]) = hole_contours PD src calls.
Proof.
  unfold hole_contours. generalize (length (fst src)). induction calls as [|c l IH]; intro k; cbn [calls_contours app].
  - reflexivity.
  - rewrite IH. reflexivity.
Qed.
Lemma steiner_history PD (src : @source F64 PD) calls s : history_points PD src (calls ++ [CSteiners PD s]) = history_points PD src calls ++ fst s.
Proof. unfold history_points. rewrite flat_map_app. cbn [flat_map call_points]. rewrite app_nil_r, app_assoc. reflexivity. Qed.
Theorem C55_steiner_points : forall PD (src : @source F64 PD) calls zs s xs ue,
  unit_ok ue -> history_points PD src calls = map (grid ue) zs -> fst s = map (grid ue) xs -> integer_input zs -> integer_input (zs ++ xs) -> no_four_cocircular (length (zs ++ xs)) (zat (zs ++ xs)) ->
  let poly := outer_contour PD src in let holes := hole_contours PD src calls in let es := history_edges PD src calls in
  (forall c, In c (poly :: holes) -> 3 <= length c) -> edges_apart zs es -> (forall p q, In (p, q) es \/ In (q, p) es -> ~ capped (zs ++ xs) p q) ->
  holes_inside zs poly holes -> loose_points_allowed zs poly holes -> loose_points_allowed (zs ++ xs) poly holes ->
  exists b1 b2, builder_of PD src calls = Done b1 /\ builder_of PD src (calls ++ [CSteiners PD s]) = Done b2 /\
  forall dbg1 dbg2, exists t1 t2 ids1 ids2,
    (forall fuel, steps (length zs) <= fuel -> triangulate dbg1 PD fuel (build PD b1) = Done t1) /\ triangle_list_indices dbg1 PD t1 = Done ids1 /\
    (forall fuel, steps (length (zs ++ xs)) <= fuel -> triangulate dbg2 PD fuel (build PD b2) = Done t2) /\ triangle_list_indices dbg2 PD t2 = Done ids2 /\
    changed_locally (zs ++ xs) es (length zs) ids1 ids2.
Proof.
  intros PD src calls zs s xs ue U HP HS IN1 IN2 NC poly holes es L3 EA CU HI LP1 LP2.
  apply (C55_added PD PD src calls zs src (calls ++ [CSteiners PD s]) xs ue ue); auto; [|apply steiner_contours].
  rewrite steiner_history, HP, HS, map_app. reflexivity.
Qed.
(** one polygon, with and without Steiner points *)
Theorem C55_polygon : forall zs xs, integer_input zs -> integer_input (zs ++ xs) -> no_four_cocircular (length (zs ++ xs)) (zat (zs ++ xs)) -> edges_apart zs (ring (length zs)) ->
  (forall p q, In (p, q) (ring (length zs)) \/ In (q, p) (ring (length zs)) -> ~ capped (zs ++ xs) p q) -> loose_points_allowed (zs ++ xs) (seq 0 (length zs)) [] ->
  forall dbg1 dbg2, exists ids1 ids2, forall fuel, steps (length (zs ++ xs)) <= fuel ->
    indices64 dbg1 fuel zs [] [] = Done ids1 /\ indices64 dbg2 fuel zs [] xs = Done ids2 /\ changed_locally (zs ++ xs) (ring (length zs)) (length zs) ids1 ids2.
Proof.
  intros zs xs IN1 IN2 NC EA CU LP dbg1 dbg2.
  assert (LS : length (fst (unit_src zs)) = length zs) by (apply map_length).
  assert (HE : forall l, history_edges unit (unit_src zs) [CSteiners unit (unit_src l)] = ring (length zs)).
  { intro l. unfold history_edges. rewrite LS. cbn [calls_edges call_edges app]. rewrite app_nil_r. reflexivity. }
  assert (OC : outer_contour unit (unit_src zs) = seq 0 (length zs)) by (unfold outer_contour; rewrite LS; reflexivity).
  destruct (C55_added unit unit (unit_src zs) [CSteiners unit (unit_src [])] zs (unit_src zs) [CSteiners unit (unit_src xs)] xs 0%Z 0%Z unit_0) as (b1 & b2 & B1 & B2 & H); rewrite ?OC, ?HE; auto.
  - unfold history_points. cbn. apply app_nil_r.
  - exact unit_0.
  - unfold history_points. cbn [flat_map call_points app unit_src fst]. rewrite app_nil_r, map_app. reflexivity.
  - intros c [<-|[]]. rewrite seq_length. apply IN1.
  - intros k p h _ [].
  - intros v Lv Nv. exfalso. apply (Nv _ (or_introl eq_refl)). apply in_seq. lia.
  - destruct (H dbg1 dbg2) as (t1 & t2 & ids1 & ids2 & T1 & X1 & T2 & X2 & CL). rewrite HE in CL. exists ids1, ids2. intros fuel Lf.
    assert (Lf1 : steps (length zs) <= fuel) by (etransitivity; [|exact Lf]; unfold steps; rewrite app_length; nia).
    specialize (T1 fuel Lf1). specialize (T2 fuel Lf). unfold indices64, triangulate64, cdt64. cbn [map]. unfold builder_of in B1, B2.
    destruct (builder_new unit (unit_src zs)) as [b0| | |]; try discriminate. cbn [rbind apply_calls apply_call] in B1, B2. injection B1 as <-. injection B2 as <-. cbn [rbind add_holes].
    rewrite T1, T2. cbn [rbind]. auto.
Qed.

(** the star with one Steiner point *)
Definition star_more : list zpt := star ++ [(21, 17)%Z].
Example star_more_ok : integer_input star_more /\ no_four_cocircular 9 (zat star_more) /\ (forall p q, In (p, q) (ring 8) \/ In (q, p) (ring 8) -> ~ capped star_more p q) /\ loose_points_allowed star_more (seq 0 8) [].
Proof.
  split; [apply integer_inputb_ok; vm_compute; reflexivity|]. split; [apply (cocircularb_ok star_more); vm_compute; reflexivity|]. split; [apply uncappedb_ok; vm_compute; reflexivity|].
  intros v Lv Nv. left. assert (v = 8) as ->.
  { change (v < 9) in Lv. destruct (Nat.eq_dec v 8) as [|N]; [assumption|]. exfalso. apply (Nv _ (or_introl eq_refl)). apply in_seq. lia. }
  vm_compute. discriminate.
Qed.
(** three of the six triangles go and three stay; those that go are disturbed (one of them is shown to be), those that stay are not *)
Example star_point_added : forall fuel, steps 9 <= fuel ->
  indices64 true fuel star [] [] = Done [7;0;1; 7;1;3; 5;7;3; 6;7;5; 5;3;4; 3;1;2] /\
  indices64 true fuel star [] [(21, 17)%Z] = Done [7;0;8; 7;8;5; 6;7;5; 5;8;3; 5;3;4; 8;1;3; 8;0;1; 3;1;2] /\
  changed_locally star_more (ring 8) 8 [7;0;1; 7;1;3; 5;7;3; 6;7;5; 5;3;4; 3;1;2] [7;0;8; 7;8;5; 6;7;5; 5;8;3; 5;3;4; 8;1;3; 8;0;1; 3;1;2] /\
  disturbed star_more (ring 8) 8 (7, 1, 3) /\ ~ disturbed star_more (ring 8) 8 (5, 3, 4).
Proof.
  intros fuel Lf. destruct star_ok as (H1 & H2 & _). destruct star_more_ok as (A1 & A2 & A3 & A4).
  destruct (C55_polygon star [(21, 17)%Z] H1 A1 A2 H2 A3 A4 true true) as (ids1 & ids2 & H).
  assert (R1 : indices64 true 300 star [] [] = Done [7;0;1; 7;1;3; 5;7;3; 6;7;5; 5;3;4; 3;1;2]) by (vm_compute; reflexivity).
  assert (R2 : indices64 true 300 star [] [(21, 17)%Z] = Done [7;0;8; 7;8;5; 6;7;5; 5;8;3; 5;3;4; 8;1;3; 8;0;1; 3;1;2]) by (vm_compute; reflexivity).
  change (length (star ++ [(21, 17)%Z])) with 9 in H. change (length star) with 8 in H.
  assert (F : 300 <= fuel) by (unfold steps in Lf; lia).
  destruct (H fuel Lf) as (X1 & X2 & CL). pose proof (indices64_more true 300 fuel star [] [] _ F R1) as Y1. pose proof (indices64_more true 300 fuel star [] [(21, 17)%Z] _ F R2) as Y2.
  assert (E1 : ids1 = [7;0;1; 7;1;3; 5;7;3; 6;7;5; 5;3;4; 3;1;2]) by congruence. assert (E2 : ids2 = [7;0;8; 7;8;5; 6;7;5; 5;8;3; 5;3;4; 8;1;3; 8;0;1; 3;1;2]) by congruence. subst ids1 ids2. clear X1 X2 R1 R2 H.
  split; [exact Y1|]. split; [exact Y2|]. split; [exact CL|]. split.
  - exists 8, 3%Z, (92, 65)%Z. split; [cbn; lia|]. split; [lia|]. split; [vm_compute; auto|]. split; [apply visibleb_ok; vm_compute; reflexivity|]. vm_compute. reflexivity.
  - destruct CL as [CL _]. apply (CL (5, 3, 4)); [cbn; tauto|]. left. cbn. tauto.
Qed.
Example star_more_good_runs : exists b1 fuel1 t1 cbs1 b2 fuel2 t2 cbs2,
  good_run unit true fuel1 (grid_src 0 star) [] b1 t1 cbs1 /\ good_run unit true fuel2 (grid_src 0 star) [CSteiners unit (grid_src 0 [(21, 17)%Z])] b2 t2 cbs2 /\
  let zs1 := coords (c_points (build unit b1)) (length (history_points unit (grid_src 0 star) [])) in
  let zs2 := coords (c_points (build unit b2)) (length (history_points unit (grid_src 0 star) [CSteiners unit (grid_src 0 [(21, 17)%Z])])) in
  zs2 = zs1 ++ [scaled (2 ^ 1074) (21, 17)%Z] /\ no_four_cocircular (length zs2) (zat zs2).
Proof.
  destruct star_ok as (H1 & H2 & H3 & _). destruct star_more_ok as (A1 & A2 & A3 & A4). destruct (grid_polygon 0 star) as (E1 & E2 & E3 & E4).
  destruct (int_good_run unit true (grid_src 0 star) [] 0%Z star unit_0) as (b1 & f1 & t1 & c1 & G1 & Q1); auto.
  { intros c [<-|[]]. cbn. lia. }
  { intros k p h _ []. }
  { intros v Lv Nv. exfalso. apply (Nv _ (or_introl eq_refl)). change (In v (seq 0 8)). change (v < 8) in Lv. apply in_seq. lia. }
  destruct (int_good_run unit true (grid_src 0 star) [CSteiners unit (grid_src 0 [(21, 17)%Z])] 0%Z star_more unit_0) as (b2 & f2 & t2 & c2 & G2 & Q2); auto.
  { change (edges_apart star_more (ring 8)). apply edges_apartb_ok. vm_compute. reflexivity. }
  { intros c [<-|[]]. cbn. lia. }
  { intros k p h _ []. }
  exists b1, f1, t1, c1, b2, f2, t2, c2. split; [exact G1|]. split; [exact G2|]. cbv zeta. rewrite Q1, Q2. split.
  - unfold star_more. rewrite map_app. reflexivity.
  - apply cocircular_scaled; [apply (KK_pos 0 unit_0)|exact A2].
Qed.
Print Assumptions C55_f64_finished_runs.
Print Assumptions C55_added.
Print Assumptions C55_steiner_points.
Print Assumptions C55_polygon.
