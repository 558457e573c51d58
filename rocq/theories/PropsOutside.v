(** * PropsOutside: C31 for finished runs, and the converse of C45: points outside the region leave no trace in the result *)
From Coq Require Import List Arith Bool Lia ZArith Permutation.
From Coq.Floats Require Import SpecFloat.
From Verif Require Import Base Num Shape ShapeSpec Utils Points Triangles Front Sweeper Cdt F64 Lists BuilderSpec History SortSpec Monad Traverse TraceSpec Grow
  Exact F64Exact FloatLaws Spec PropsBuilder PropsTrace PropsSafe FrontSpec Geom Mesh Setup Good Init Winding CoverRun Stokes Region PropsMesh PropsCover PropsMarks PropsRegion FillTotal Local PropsTotal PropsCup PropsTri F64Real IntSpec IntF64 IntRun IntHyp PropsInt PropsCdt PropsCdtInt PropsIntEx PropsCdtEx PropsOutcome CountAll PropsCount Unique PropsUnique Moved PropsMoved Outside.
Import ListNotations.
Local Open Scope nat_scope.

(** ** C45, the converse: a corner of a returned triangle is on a contour, or strictly inside the polygon and in no hole *)
Theorem C45_only_region_points : forall PD dbg fuel (src : @source F64 PD) calls (b : Builder PD) t cbs,
  builder_of PD src calls = Done b -> let ps := c_points (build PD b) in
  proper ps -> plane_input ps (history_edges PD src calls) -> observed dbg fuel (build PD b) = (Done t, cbs) -> fills_ccw ps cbs ->
  let poly := outer_contour PD src in let holes := hole_contours PD src calls in
  (forall c, In c (poly :: holes) -> 3 <= length c) -> holes_nested ps poly holes -> steiner_allowed PD ps src calls ->
  exists ids, triangle_list_indices dbg PD t = Done ids /\
    forall a b c v, In (a, b, c) (triples ids) -> v = a \/ v = b \/ v = c ->
      (exists d, In d (poly :: holes) /\ In v d) \/ wind (zc ps) poly (zc ps v) <> 0%Z /\ forall h, In h holes -> wind (zc ps) h (zc ps v) = 0%Z.
Proof.
  intros PD dbg fuel src calls b t cbs B ps PP PI O F poly holes L3 HN ST.
  destruct (C43_finished_run PD dbg fuel src calls b t cbs B PP PI O F L3 HN ST) as (ids & T & C). exists ids. split; [exact T|].
  intros x y w v It Cv. destruct (contours_range PD src calls) as [ND RG].
  destruct (in_dec Nat.eq_dec v (concat (poly :: holes))) as [Iv|Nv]; [left; apply in_concat in Iv as (d & Id & Iv); eauto|right].
  pose proof (pr_head ps PP) as PH. assert (HD : ps_head ps = length (history_points PD src calls)) by (pose proof (History.builder_of_points _ _ _ _ B) as (B1 & _ & _); rewrite <- B1; reflexivity).
  apply (corner_in_region (length (history_points PD src calls)) (zc ps) poly holes ids (x, y, w) v); auto.
  - exact (proj1 C).
  - intros i j k Li Lj Lk. apply (pi_col _ _ PI); lia.
  - intros c Ic. split; [exact (concat_nodup _ _ ND Ic)|apply L3; exact Ic].
  - intros c Ic Iv. apply Nv, in_concat. eauto.
Qed.

(** ** calls that add Steiner points only *)
Section More.
Variable PD : Type.
Definition steiner_call (c : @call F64 PD) : Prop := match c with CSteiner _ _ _ | CSteiners _ _ => True | _ => False end.
Lemma more_contours more : Forall steiner_call more -> forall calls k, calls_contours PD k (calls ++ more) = calls_contours PD k calls.
Proof using.
  intros FM calls. induction calls as [|c calls IH]; intro k; [|cbn [app calls_contours]; rewrite IH; reflexivity].
  cbn [app]. revert k. induction FM as [|c more Hc FM IH]; intro k; [reflexivity|]. cbn [calls_contours]. rewrite IH. destruct c; [destruct Hc|destruct Hc|reflexivity|reflexivity].
Qed.
Lemma more_holes (src : @source F64 PD) calls more : Forall steiner_call more -> hole_contours PD src (calls ++ more) = hole_contours PD src calls.
Proof using. intro H. apply more_contours. exact H. Qed.
Lemma more_edges (src : @source F64 PD) calls more : Forall steiner_call more -> history_edges PD src (calls ++ more) = history_edges PD src calls.
Proof using. intro H. rewrite <- !contours_edges, more_holes by exact H. reflexivity. Qed.
Lemma more_points (src : @source F64 PD) calls more : history_points PD src (calls ++ more) = history_points PD src calls ++ flat_map (call_points PD) more.
Proof using. unfold history_points. rewrite flat_map_app, app_assoc. reflexivity. Qed.
Lemma zc_history (src : @source F64 PD) calls b v : builder_of PD src calls = Done b -> v < length (history_points PD src calls) ->
  zc (c_points (build PD b)) v = match nth_error (history_points PD src calls) v with Some p => zp p | None => (0, 0)%Z end.
Proof using.
  intros B L. pose proof (History.builder_of_points _ _ _ _ B) as (B1 & _ & _). unfold zc, build, pb_build, points_new. cbn [c_points ps_points]. rewrite B1. rewrite nth_error_app1 by exact L. reflexivity.
Qed.
Lemma zc_more (src : @source F64 PD) calls more b b' v : builder_of PD src calls = Done b -> builder_of PD src (calls ++ more) = Done b' -> v < length (history_points PD src calls) ->
  zc (c_points (build PD b')) v = zc (c_points (build PD b)) v.
Proof using.
  intros B B' L. rewrite (zc_history src calls b v B L), (zc_history src (calls ++ more) b' v B') by (rewrite more_points, app_length; lia). rewrite more_points, nth_error_app1 by exact L. reflexivity.
Qed.
End More.

(** ** C31: two finished runs, the second with additional Steiner points all outside the polygon or inside a hole *)
Theorem C31_finished_runs_partial : forall PD dbg1 dbg2 fuel1 fuel2 (src : @source F64 PD) calls more (b1 b2 : @Builder F64 PD) t1 t2 cbs1 cbs2,
  Forall (steiner_call PD) more ->
  good_run PD dbg1 fuel1 src calls b1 t1 cbs1 -> good_run PD dbg2 fuel2 src (calls ++ more) b2 t2 cbs2 ->
  let ps := c_points (build PD b2) in let n := length (history_points PD src calls) in
  no_four_cocircular n (zc ps) ->
  (forall v, n <= v < length (history_points PD src (calls ++ more)) -> wind (zc ps) (outer_contour PD src) (zc ps v) = 0%Z \/
     exists h, In h (hole_contours PD src calls) /\ wind (zc ps) h (zc ps v) <> 0%Z) ->
  exists ids1 ids2, triangle_list_indices dbg1 PD t1 = Done ids1 /\ triangle_list_indices dbg2 PD t2 = Done ids2 /\ same_indices ids1 ids2.
Proof.
  intros PD dbg1 dbg2 fuel1 fuel2 src calls more b1 b2 t1 t2 cbs1 cbs2 FM (B1 & PP1 & PI1 & O1 & F1 & L31 & HN1 & ST1) (B2 & PP2 & PI2 & O2 & F2 & L32 & HN2 & ST2) ps n NC OUT.
  destruct (C43_finished_run PD dbg1 fuel1 src calls b1 t1 cbs1 B1 PP1 PI1 O1 F1 L31 HN1 ST1) as (ids1 & T1 & C1).
  destruct (C43_finished_run PD dbg2 fuel2 src (calls ++ more) b2 t2 cbs2 B2 PP2 PI2 O2 F2 L32 HN2 ST2) as (ids2 & T2 & C2).
  exists ids1, ids2. split; [exact T1|]. split; [exact T2|].
  rewrite more_edges, more_holes in C2 by exact FM. destruct (contours_range PD src calls) as [ND RG].
  assert (RE : forall x y, In (x, y) (history_edges PD src calls) -> x < n /\ y < n) by (intros x y; rewrite <- contours_edges; apply edges_range; exact RG).
  assert (LN : n <= length (history_points PD src (calls ++ more))) by (unfold n; rewrite more_points, app_length; lia).
  assert (HD : ps_head ps = length (history_points PD src (calls ++ more))) by (pose proof (History.builder_of_points _ _ _ _ B2) as (Q & _ & _); rewrite <- Q; reflexivity).
  pose proof (pr_head ps PP2) as PH.
  assert (GP : general_position (length (history_points PD src (calls ++ more))) (zc ps)) by (intros i j k Li Lj Lk; apply (pi_col _ _ PI2); fold ps; lia).
  assert (C2' : proper_cdt n (zc ps) (history_edges PD src calls) (outer_contour PD src) (hole_contours PD src calls) ids2).
  { apply (forget_outside n _ (zc ps) _ _ _ ids2 LN C2 GP RG); [|exact OUT]. intros c Ic. split; [exact (concat_nodup _ _ ND Ic)|apply L31; exact Ic]. }
  assert (C1' : proper_cdt n (zc ps) (history_edges PD src calls) (outer_contour PD src) (hole_contours PD src calls) ids1).
  { apply (move_cdt n (zc ps) (zc (c_points (build PD b1))) _ _ _ 1 (0, 0)%Z); auto; [lia|]. intros v Lv. rewrite moved_id. symmetry. exact (zc_more PD src calls more b1 b2 v B1 B2 Lv). }
  apply (unique_indices n (zc ps) (history_edges PD src calls) (outer_contour PD src) (hole_contours PD src calls)); auto.
  - intros i j Li Lj NE. intro Q. apply NE, (pr_inj ps PP2); [fold ps; lia|fold ps; lia|exact Q].
  - intros i j k Li Lj Lk. apply GP; lia.
Qed.

(** ** C31: integer inputs without a cap *)
Lemma zat_app zs ex v : v < length zs -> zat (zs ++ ex) v = zat zs v.
Proof. intro L. unfold zat. apply app_nth1. exact L. Qed.
Lemma app_capped zs ex p q : p < length zs -> q < length zs -> capped zs p q -> capped (zs ++ ex) p q.
Proof.
  intros Lp Lq (H1 & H2 & u & v & w & Lu & Lv & Lw & H). split; [rewrite !zat_app by assumption; exact H1|]. split; [rewrite !zat_app by assumption; exact H2|].
  exists u, v, w. rewrite app_length. split; [lia|]. split; [lia|]. split; [lia|]. rewrite !zat_app by assumption. exact H.
Qed.
Lemma app_apart zs ex es : (forall x y, In (x, y) es -> x < length zs /\ y < length zs) -> edges_apart zs es -> edges_apart (zs ++ ex) es.
Proof.
  intros R H [a b] [c d] I1' I2'. specialize (H _ _ I1' I2'). cbn [fst snd] in *. destruct (R _ _ I1') as [La Lb]. destruct (R _ _ I2') as [Lc Ld].
  rewrite !zat_app by assumption. exact H.
Qed.
Lemma app_wind zs ex c k p : (forall v, In v c -> v < length zs) -> wind (fun v => scaled k (zat (zs ++ ex) v)) c p = wind (fun v => scaled k (zat zs v)) c p.
Proof. intro R. apply wind_ext. intros v Iv. rewrite zat_app by (apply R; exact Iv). reflexivity. Qed.
Lemma app_wind1 zs ex c p : (forall v, In v c -> v < length zs) -> wind (zat (zs ++ ex)) c p = wind (zat zs) c p.
Proof. intro R. apply wind_ext. intros v Iv. apply zat_app, R. exact Iv. Qed.

(** a Steiner point that must not have an effect: outside the polygon or inside a hole *)
Definition outside_region (zs : list zpt) (poly : list nat) (holes : list (list nat)) (p : zpt) : Prop :=
  wind (zat zs) poly p = 0%Z \/ exists h, In h holes /\ wind (zat zs) h p <> 0%Z.
(** another input point lies to its left and not below it *)
Definition sheltered (zs : list zpt) (p : zpt) : Prop := exists q, In q zs /\ (fst q < fst p)%Z /\ (snd p <= snd q)%Z.

Theorem C31_integer_inputs_partial : forall PD (src : @source F64 PD) calls more ue zs ex,
  unit_ok ue -> history_points PD src calls = map (grid ue) zs -> integer_input zs -> no_four_cocircular (length zs) (zat zs) ->
  let es := history_edges PD src calls in let poly := outer_contour PD src in let holes := hole_contours PD src calls in
  edges_apart zs es -> (forall c, In c (poly :: holes) -> 3 <= length c) -> holes_inside zs poly holes -> loose_points_allowed zs poly holes ->
  (** the calls in [more] add the Steiner points [ex] and nothing else *)
  Forall (steiner_call PD) more -> flat_map (call_points PD) more = map (grid ue) ex -> integer_input (zs ++ ex) ->
  (forall p q, In (p, q) es \/ In (q, p) es -> ~ capped (zs ++ ex) p q) ->
  (forall p, In p ex -> outside_region zs poly holes p /\ (wind (zat zs) poly p <> 0%Z \/ sheltered (zs ++ ex) p)) ->
  exists b1 b2, builder_of PD src calls = Done b1 /\ builder_of PD src (calls ++ more) = Done b2 /\
  forall dbg1 dbg2, exists t1 t2 ids1 ids2,
    (forall fuel, steps (length zs) <= fuel -> triangulate dbg1 PD fuel (build PD b1) = Done t1) /\ triangle_list_indices dbg1 PD t1 = Done ids1 /\
    (forall fuel, steps (length (zs ++ ex)) <= fuel -> triangulate dbg2 PD fuel (build PD b2) = Done t2) /\ triangle_list_indices dbg2 PD t2 = Done ids2 /\
    same_indices ids1 ids2.
Proof.
  intros PD src calls more ue zs ex UB HP IN NC es poly holes EA L3 HN ST FM HX IN2 CU OUT.
  destruct (contours_range PD src calls) as [ND RG]. rewrite HP, map_length in RG.
  assert (RE : forall x y, In (x, y) es -> x < length zs /\ y < length zs) by (intros x y; unfold es; rewrite <- contours_edges; apply edges_range; exact RG).
  assert (EX : forall v, length zs <= v -> v < length (zs ++ ex) -> In (zat (zs ++ ex) v) ex).
  { intros v L1 L2. rewrite app_length in L2. unfold zat. rewrite app_nth2 by exact L1. apply nth_In. lia. }
  destruct (C28_integer_inputs_cdt_partial PD src calls ue zs UB HP IN EA) as (b1 & B1 & R1); auto.
  { intros p q Ie Q. apply (CU p q Ie). assert (p < length zs /\ q < length zs) as [Lp Lq] by (destruct Ie as [Ie|Ie]; apply RE in Ie; tauto). apply app_capped; assumption. }
  destruct (C28_integer_inputs_cdt_partial PD src (calls ++ more) ue (zs ++ ex) UB) as (b2 & B2 & R2).
  - rewrite more_points, HP, HX, map_app. reflexivity.
  - exact IN2.
  - rewrite more_edges by exact FM. apply app_apart; assumption.
  - rewrite more_edges by exact FM. exact CU.
  - rewrite more_holes by exact FM. exact L3.
  - rewrite more_holes by exact FM. intros k p h K Ih. fold poly holes. rewrite !app_wind by (intros v; apply RG; first [left; reflexivity|right; exact Ih]). intro W.
    destruct (HN k p h K Ih W) as [W1 W2]. split; [exact W1|]. intros h' Ih' NE. rewrite app_wind by (intros v; apply RG; right; exact Ih'). apply W2; assumption.
  - rewrite more_holes by exact FM. intros v Lv Nv. fold poly holes. rewrite app_wind1 by (intros u; apply RG; left; reflexivity).
    destruct (Nat.lt_ge_cases v (length zs)) as [L|L].
    + rewrite zat_app by exact L. destruct (ST v L Nv) as [W|(q & Lq & X & Y)]; [left; exact W|right]. exists q. rewrite app_length, zat_app by exact Lq. split; [lia|]. split; assumption.
    + destruct (OUT _ (EX v L Lv)) as [_ [W|(q & Iq & X & Y)]]; [left; exact W|right]. destruct (In_nth (zs ++ ex) q (0, 0)%Z Iq) as (i & Li & Q). exists i. split; [exact Li|]. unfold zat at 1 4. rewrite Q. split; assumption.
  - exists b1, b2. split; [exact B1|]. split; [exact B2|]. intros dbg1 dbg2. destruct (R1 dbg1) as (t1 & ids1 & T1 & X1 & C1). destruct (R2 dbg2) as (t2 & ids2 & T2 & X2 & C2).
    exists t1, t2, ids1, ids2. split; [exact T1|]. split; [exact X1|]. split; [exact T2|]. split; [exact X2|].
    rewrite more_edges, more_holes in C2 by exact FM. destruct (int_gp zs IN) as [DI GP]. destruct (int_gp (zs ++ ex) IN2) as [_ GP2].
    apply (unique_indices (length zs) (zat zs) es poly holes); auto.
    apply (move_cdt (length zs) (zat zs) (zat (zs ++ ex)) es poly holes 1 (0, 0)%Z); auto; [lia|intros v Lv; rewrite moved_id; apply zat_app; exact Lv|].
    apply (forget_outside (length zs) (length (zs ++ ex)) (zat (zs ++ ex)) es poly holes ids2); auto.
    + rewrite app_length. lia.
    + intros c Ic. split; [exact (concat_nodup _ _ ND Ic)|apply L3; exact Ic].
    + intros v [L1 L2]. destruct (OUT _ (EX v L1 L2)) as [O _]. destruct O as [W|(h & Ih & W)]; [left|right; exists h; split; [exact Ih|]].
      * rewrite app_wind1 by (intros u; apply RG; left; reflexivity). exact W.
      * rewrite app_wind1 by (intros u; apply RG; right; exact Ih). exact W.
Qed.

(** one polygon, with and without the Steiner points: [triangle_list_indices] gives the same triangles *)
Theorem C31_polygon_partial : forall zs ex, integer_input zs -> integer_input (zs ++ ex) -> no_four_cocircular (length zs) (zat zs) ->
  edges_apart zs (ring (length zs)) -> (forall p q, In (p, q) (ring (length zs)) \/ In (q, p) (ring (length zs)) -> ~ capped (zs ++ ex) p q) ->
  (forall p, In p ex -> wind (zat zs) (seq 0 (length zs)) p = 0%Z /\ sheltered (zs ++ ex) p) ->
  forall dbg1 dbg2, exists ids1 ids2, forall fuel, steps (length (zs ++ ex)) <= fuel ->
    indices64 dbg1 fuel zs [] [] = Done ids1 /\ indices64 dbg2 fuel zs [] ex = Done ids2 /\ same_indices ids1 ids2.
Proof.
  intros zs ex IN IN2 NC EA CU OUT dbg1 dbg2.
  assert (LS : length (fst (unit_src zs)) = length zs) by (apply map_length).
  set (more := [CSteiners unit (unit_src ex)] : list (@call F64 unit)).
  assert (HE : history_edges unit (unit_src zs) [] = ring (length zs)) by (unfold history_edges; rewrite LS; cbn [calls_edges app]; rewrite app_nil_r; reflexivity).
  assert (OC : outer_contour unit (unit_src zs) = seq 0 (length zs)) by (unfold outer_contour; rewrite LS; reflexivity).
  destruct (C31_integer_inputs_partial unit (unit_src zs) [] more 0%Z zs ex unit_0) as (b1 & b2 & B1 & B2 & H); auto.
  - unfold history_points. cbn. apply app_nil_r.
  - rewrite HE. exact EA.
  - intros c [<-|[]]. rewrite OC, seq_length. apply IN.
  - intros k p h _ [].
  - intros v Lv Nv. exfalso. apply (Nv _ (or_introl eq_refl)). rewrite OC. apply in_seq. lia.
  - constructor; [exact Logic.I|constructor].
  - cbn. apply app_nil_r.
  - rewrite HE. exact CU.
  - intros p Ip. rewrite OC. destruct (OUT p Ip) as [W S']. split; [left; exact W|right; exact S'].
  - destruct (H dbg1 dbg2) as (t1 & t2 & ids1 & ids2 & T1 & X1 & T2 & X2 & SI). exists ids1, ids2. intros fuel Lf. specialize (T2 fuel Lf). rewrite app_length in Lf. pose proof (steps_mono (length zs) (length zs + length ex) ltac:(lia)) as SM. specialize (T1 fuel ltac:(lia)).
    unfold builder_of in B1, B2. unfold indices64, triangulate64, cdt64. cbn [map].
    destruct (builder_new unit (unit_src zs)) as [b0| | |] eqn:B0; try discriminate. cbn [rbind app more apply_calls apply_call] in B1, B2. injection B1 as <-. injection B2 as <-. cbn [rbind add_holes].
    split; [|split; [rewrite T2; cbn [rbind]; exact X2|exact SI]].
    assert (E0 : add_steiner_points unit b0 (unit_src []) = b0).
    { assert (W : bd_wf unit b0) by (apply (History.builder_of_points unit (unit_src zs) []); unfold builder_of; rewrite B0; reflexivity).
      unfold add_steiner_points, pb_add_steiner_points. destruct b0 as [[pp ee] dd]. unfold bd_wf, wf_pb in W. cbn [bd_points pb_edges pb_points] in W. cbn [bd_points bd_data pb_points pb_edges fst snd unit_src map]. rewrite !app_nil_r.
      unfold vec_resize. rewrite <- W, firstn_all, Nat.sub_diag. cbn [repeat]. rewrite app_nil_r. reflexivity. }
    rewrite E0, T1. cbn [rbind]. exact X1.
Qed.

(** the star with three more points: to its right, in a pocket on its right side, below it *)
Example star_outside : let ex := [(70,20);(58,31);(58,-5)]%Z in integer_input (star ++ ex) /\ (forall p, In p ex -> wind (zat star) (seq 0 8) p = 0%Z /\ sheltered (star ++ ex) p) /\ forall dbg, exists ids1 ids2, forall fuel, steps 11 <= fuel ->
    indices64 dbg fuel star [] [] = Done ids1 /\ indices64 dbg fuel star [] ex = Done ids2 /\ same_indices ids1 ids2.
Proof.
  intro ex.
  assert (I2' : integer_input (star ++ ex)) by (apply integer_inputb_ok; vm_compute; reflexivity).
  assert (OUT : forall p, In p ex -> wind (zat star) (seq 0 8) p = 0%Z /\ sheltered (star ++ ex) p).
  { intros p [<-|[<-|[<-|[]]]]; (split; [vm_compute; reflexivity|exists (2, 61)%Z; split; [cbn; tauto|cbn; lia]]). }
  split; [exact I2'|]. split; [exact OUT|]. intro dbg. destruct star_ok as (H1 & H2 & _ & _).
  assert (NC : no_four_cocircular 8 (zat star)) by (apply (cocircularb_ok star); vm_compute; reflexivity).
  refine (C31_polygon_partial star ex H1 I2' NC H2 _ OUT dbg dbg). change (length star) with 8. apply uncappedb_ok. vm_compute. reflexivity.
Qed.
Print Assumptions C45_only_region_points.
Print Assumptions C31_finished_runs_partial.
Print Assumptions C31_integer_inputs_partial.
Print Assumptions C31_polygon_partial.
