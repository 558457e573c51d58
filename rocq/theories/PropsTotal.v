(** * PropsTotal: runs that finish (C28, C29, C30 where they hold) and fuel (C22)

    The model runs with a step budget ("fuel").  First: the budget is irrelevant.  A run that finishes
    or panics within some budget does exactly the same with every larger one, and a run that
    exhausts its budget shows a prefix of the callbacks seen with a larger one.  So "the call returns"
    is "for some budget the run is Done", and nothing below depends on a particular one.

    Then: on an input without crossing edges and without three points on a line, a run whose filled
    triangles are all counter-clockwise when they are announced finishes without a panic, in both
    build profiles; and on tame inputs ([tame]: below every edge that leans to the right the points
    form a cup) every run does. *)
From Coq Require Import List Arith Bool Lia ZArith Permutation Sorted.
From Verif Require Import Base Num Shape ShapeSpec Utils Points Triangles Front Sweeper Cdt F64 Lists BuilderSpec History SortSpec Monad Traverse TraceSpec Grow
  Exact F64Exact Spec PropsBuilder PropsTrace PropsSafe FrontSpec Geom Mesh Rotate Setup Legal Legalize Boundary Chain Remap Attach FrontInv Disc Good Marks Flips Init PropsFront Fills MeshRun MeshStart LegalTotal
  Cone Planar Corridor Frames Insert PropsMesh PropsFinal FanAll Total FrontSub FillTotal EdgeFill NoCross CorTotal InsertTotal EdgeTotal RunTotal Local Fuel.
Import ListNotations.

Section S.
Context {A : Arith}.

(** ** the step budget *)
Theorem fuel_irrelevant : forall PD dbg fuel fuel' (c : CDT PD) r cbs, observed dbg fuel c = (r, cbs) -> fuel <= fuel' ->
  match r with
  | OutOfFuel => exists more, snd (observed dbg fuel' c) = cbs ++ more
  | _ => observed dbg fuel' c = (r, cbs)
  end.
Proof.
  intros PD dbg fuel fuel' c r cbs O LE.
  destruct (observed dbg fuel' c) as [r2 cbs2] eqn:O2. cbn [snd].
  apply observed_run in O as (r1 & s1 & R1 & -> & _ & ->). apply observed_run in O2 as (r2' & s2 & R2 & -> & _ & ->).
  unfold run in *. destruct (run_init (c_points c)) as [s0|p|u|].
  - destruct (fm_run_body dbg (c_points c) fuel fuel' LE s0) as (_ & H1 & H2). rewrite R1, R2 in *. cbn [fst snd] in *.
    destruct r1 as [x|p|u|]; cbn [rbind].
    1-3: specialize (H1 ltac:(discriminate)); injection H1 as -> ->; reflexivity.
    destruct (H2 eq_refl) as [l H]. exists (rev l). rewrite H, rev_app_distr. reflexivity.
  - injection R1 as <- <-. injection R2 as <- <-. reflexivity.
  - injection R1 as <- <-. injection R2 as <- <-. reflexivity.
  - injection R1 as <- <-. injection R2 as <- <-. exists []. reflexivity.
Qed.
End S.

Section T.
Context {A : Arith} {E : Exact A}.

Lemma good_fills ps cbs : Good ps (rev cbs) -> fills_ccw ps cbs.
Proof.
  intros H cb t IN EV L. unfold Good in H. rewrite Forall_forall in H. apply in_rev in IN. specialize (H cb IN).
  unfold good_cb in H. rewrite EV in H. exact (H L).
Qed.

Lemma Fuel_ge points k fuel : k + (npts points * npts points + 2 * npts points + 2) <= fuel -> Fuel points k fuel.
Proof. intros LE. exists (npts points * npts points + 2 * npts points + 2). split; [|exact LE]. split; lia. Qed.

(** fuel that suffices for a whole run on n points: no loop takes more turns and no chain of
    nested calls is deeper *)
Definition steps (n : nat) : nat := 11 * (n + 4) * (n + 4).

Lemma steps_mono n m : n <= m -> steps n <= steps m.
Proof. intro L. unfold steps. apply Nat.mul_le_mono; [apply Nat.mul_le_mono|]; lia. Qed.
Lemma run_fuel PD src calls (b : Builder PD) fuel : builder_of PD src calls = Done b -> let ps := c_points (build PD b) in
  steps (length (history_points PD src calls)) <= fuel ->
  Fuel ps (2 * npts ps + 6 + EB ps) fuel /\ 8 * npts ps + 2 <= fuel /\ length (history_points PD src calls) + 4 <= fuel.
Proof.
  intros B ps LE. pose proof (builder_of_points PD src calls b B) as (B1 & _ & _).
  assert (NP : npts ps = length (history_points PD src calls) + 2).
  { change (length (pb_points (bd_points b) ++ [head_point (pb_points (bd_points b)); tail_point (pb_points (bd_points b))]) = length (history_points PD src calls) + 2).
    rewrite app_length, B1. reflexivity. }
  unfold steps in LE. split; [apply Fuel_ge; unfold EB, BB; lia|]. split; lia.
Qed.

(** one analysis of the run for both theorems *)
Lemma run_total_aux PD dbg src calls (b : Builder PD) : builder_of PD src calls = Done b -> let ps := c_points (build PD b) in
  history_points PD src calls <> [] -> proper ps -> planar ps -> eps_ok ps ->
  forall fuel, steps (length (history_points PD src calls)) <= fuel -> forall r cbs, observed dbg fuel (build PD b) = (r, cbs) ->
  (fills_ccw ps cbs \/ tame ps (input_edge ps) -> fills_ccw ps cbs /\ exists t, r = Done t) /\ (exact_fills ps -> Loc ps (rev cbs)).
Proof.
  intros B ps NE PP PN EO.
  pose proof (builder_of_points PD src calls b B) as (B1 & _ & _).
  intros fuel LE r cbs O. destruct (run_fuel PD src calls b fuel B LE) as (HF & HF2 & HF3). fold ps in HF, HF2. clear LE.
  pose proof (run_start PD src calls b B) as RS. cbv zeta in RS.
  pose proof O as O0. apply observed_run in O as (r' & s & R & TRC & _ & Er).
  change (points_new (pb_points (bd_points b)) (pb_edges (bd_points b))) with ps in RS.
  destruct (RS PP ltac:(rewrite B1; exact NE)) as (lowest & plow & l & Hp & RI & EI & HI & TD).
  set (s0 := start_state (pb_points (bd_points b)) lowest plow) in *.
  unfold run in R. change (c_points (build PD b)) with ps in R. rewrite RI in R.
  assert (LL : lowest < ps_head ps) by (apply nth_error_lt in Hp; exact Hp).
  destruct (pr_frame ps PP lowest LL) as (F1 & F2 & F3).
  assert (T0 : TK ps [lowest] [ps_head ps; lowest; ps_tail ps] s0).
  { constructor; auto.
    - constructor.
    - pose proof (pr_head ps PP). cbn [length]; lia.
    - intros v [<-|[]]. left. simpl. auto. }
  assert (SX0 : sx ps [ps_head ps; lowest; ps_tail ps]).
  { intros u w [<-|[<-|[<-|[]]]] [<-|[<-|[<-|[]]]]; auto; lia. }
  assert (ND0 : NoDup [lowest]) by (constructor; [intros []|constructor]).
  assert (HD0 : forall v, In v [lowest] -> v < ps_head ps) by (intros v [<-|[]]; auto).
  pose proof (sweep_loop_tot dbg ps PP fuel (fun p q H => H) PN EO HF l [lowest] _ s0 T0 SX0 ND0 HD0 TD) as SW.
  assert (SL : exact_fills ps -> lc ps (sweep_loop dbg ps fuel l) s0 (fun _ _ => True)).
  { intro EF. apply (sweep_loop_loc dbg ps PP fuel PN EF EO HF l [lowest] _ s0 T0 SX0 ND0 HD0 TD). }
  unfold run_body, sweep_points, bind, lift in R. rewrite EI in R. unfold Total.gd in SW. unfold lc in SL.
  destruct (sweep_loop dbg ps fuel l s0) as [r1 s1] eqn:QS. cbn [fst snd] in SW, SL.
  (* the rest of the run only adds the two last callbacks *)
  assert (TS : exists x, s_trace s = x ++ s_trace s1 /\ Good ps x /\ (forall u, r1 = Done u -> exists y, x = y ++ [mkCb EvSweepDone (s_tris s1) (s_front s1) (s_result s1)])).
  { destruct r1 as [u|p|u|]; [|injection R as <- <-; exists []; split; [reflexivity|split; [constructor|discriminate]]..].
    unfold emit in R at 1. set (s1' := mkSw _ _ _ _) in R.
    pose proof (trace_only (fun s' => s_trace s' = s_trace s1') ltac:(cbv beta; intros; congruence) fuel s1' eq_refl) as TO. unfold wp in TO.
    destruct (finalize_polygon fuel s1') as [r2 s2]. destruct r2 as [u2|p|u2|]; cbv beta in TO.
    - unfold emit in R. injection R as <- <-. cbn [s_trace]. rewrite TO. eexists [_; _]. split; [reflexivity|]. split; [repeat constructor|]. intros. eexists [_]. reflexivity.
    - injection R as <- <-. eexists [_]. split; [exact TO|]. split; [repeat constructor|]. intros. exists []. reflexivity.
    - injection R as <- <-. eexists [_]. split; [exact TO|]. split; [repeat constructor|]. intros. exists []. reflexivity.
    - injection R as <- <-. eexists [_]. split; [exact TO|]. split; [repeat constructor|]. intros. exists []. reflexivity. }
  destruct TS as (x & TS & Gx & SD).
  split.
  - intro G.
    assert (G1 : Good ps (s_trace s1) \/ tame ps (input_edge ps)).
    { destruct G as [G|G]; auto. left. apply fills_good in G. rewrite TRC, rev_involutive, TS in G. apply Forall_app in G. apply G. }
    destruct (SW (Forall_nil _) G1) as ([] & -> & (D' & vs' & T1) & G2).
    destruct (SD tt eq_refl) as (y & ->). set (cbD := mkCb EvSweepDone (s_tris s1) (s_front s1) (s_result s1)) in *.
    assert (FC : fills_ccw ps cbs).
    { apply good_fills. rewrite TRC, rev_involutive, TS. apply Forall_app. split; auto. }
    rewrite TS, !rev_app_distr in TRC. cbn [rev app] in TRC.
    split; auto.
    apply (C12_completes_after_sweep PD dbg fuel src calls b r (rev (s_trace s1)) cbD (rev y) B PP); auto.
    + apply (scan_exact_sound ps (pn_scan _ PN)).
    + rewrite O0, TRC. reflexivity.
    + intros cb t IN. apply FC. rewrite TRC. apply in_app_or in IN as [IN|[<-|[]]]; apply in_or_app; simpl; auto.
    + pose proof (tk_cnt _ _ _ _ T1) as Z1. pose proof (tk_D _ _ _ _ T1). pose proof (tk_len2 ps PP _ _ _ T1).
      change (cb_tris cbD) with (s_tris s1). lia.
    + lia.
  - intro EF. destruct (SL EF (Forall_nil _)) as [_ K]. rewrite TRC, rev_involutive, TS.
    destruct (Good_dec ps (s_trace s1)) as [G|G]; [apply Loc_good, Forall_app; auto|apply Loc_ext; auto].
Qed.

(** Every run, with or without debug assertions, finishes if each triangle it creates is counter-clockwise
    when it is announced. *)
Theorem C28_completes_or_inverts : forall PD dbg src calls (b : Builder PD),
  builder_of PD src calls = Done b -> let ps := c_points (build PD b) in
  history_points PD src calls <> [] -> proper ps -> planar ps -> eps_ok ps ->
  forall fuel, steps (length (history_points PD src calls)) <= fuel ->
  forall r cbs, observed dbg fuel (build PD b) = (r, cbs) -> fills_ccw ps cbs -> exists t, r = Done t.
Proof.
  intros PD dbg src calls b B ps NE PP PN EO. pose proof (run_total_aux PD dbg src calls b B NE PP PN EO) as H.
  intros fuel LE r cbs O F. apply (H fuel LE r cbs O). auto.
Qed.

(** C22: no point event creates an inverted triangle on a mesh of counter-clockwise triangles.  The first
    triangle of a run that is not counter-clockwise is created while an input edge p-q is inserted (the last point
    event announced before is the exit from q), that edge leans to the right, and there are points
    below it that do not form a cup. *)
Theorem C22_first_inversion : forall PD dbg fuel src calls (b : Builder PD) r before cb after,
  builder_of PD src calls = Done b -> let ps := c_points (build PD b) in
  proper ps -> planar ps -> eps_ok ps -> exact_fills ps ->
  observed dbg fuel (build PD b) = (r, before ++ cb :: after) -> fills_ccw ps before -> ~ fills_ccw ps (before ++ [cb]) ->
  exists p q, input_edge ps p q /\ convex_below ps p q /\ exists es, point_events (map cb_event before) = es ++ [EvExitPoint q].
Proof.
  intros PD dbg fuel src calls b r before cb after B ps PP PN EO EF O F NF.
  assert (NE : history_points PD src calls <> []).
  { intro Q. apply observed_run in O as (r' & s & R & TRC & _). pose proof (builder_of_points PD src calls b B) as (B1 & _ & _). rewrite Q in B1.
    unfold run in R. change (c_points (build PD b)) with (points_new (pb_points (bd_points b)) (pb_edges (bd_points b))) in R. rewrite B1 in R.
    unfold run_init in R. simpl in R. injection R as _ <-. destruct before; discriminate. }
  pose proof (run_total_aux PD dbg src calls b B NE PP PN EO) as H. set (f0 := steps (length (history_points PD src calls))) in *.
  destruct (observed dbg (fuel + f0) (build PD b)) as [r2 cbs2] eqn:O2.
  destruct (H (fuel + f0) ltac:(lia) _ _ O2) as [_ K]. specialize (K EF).
  assert (P : exists more, cbs2 = before ++ cb :: more).
  { pose proof (fuel_irrelevant PD dbg fuel (fuel + f0) (build PD b) r _ O ltac:(lia)) as FI. rewrite O2 in FI.
    destruct r; try (injection FI as _ ->; eauto). cbn [snd] in FI. destruct FI as [more ->]. exists (after ++ more). rewrite <- app_assoc. reflexivity. }
  destruct P as [more ->]. rewrite rev_app_distr in K. cbn [rev] in K. rewrite <- app_assoc in K. cbn [app] in K.
  destruct (K (rev more) cb (rev before) eq_refl (fills_good _ _ F)) as (p & q & H1 & H2 & es & H3).
  - intro G. apply NF. apply good_fills. rewrite rev_app_distr. constructor; [exact G|apply fills_good; exact F].
  - exists p, q. split; auto. split; auto. exists es. rewrite rev_involutive in H3. exact H3.
Qed.

(** ... and so every run that does not finish: whatever goes wrong later, there was such an edge. *)
Theorem C22_failures_come_from_edges : forall PD dbg src calls (b : Builder PD),
  builder_of PD src calls = Done b -> let ps := c_points (build PD b) in
  history_points PD src calls <> [] -> proper ps -> planar ps -> eps_ok ps -> exact_fills ps ->
  forall fuel, steps (length (history_points PD src calls)) <= fuel -> forall r cbs, observed dbg fuel (build PD b) = (r, cbs) ->
  (exists t, r = Done t) \/
  exists before cb after p q, cbs = before ++ cb :: after /\ fills_ccw ps before /\ ~ fills_ccw ps (before ++ [cb]) /\
    input_edge ps p q /\ convex_below ps p q /\ exists es, point_events (map cb_event before) = es ++ [EvExitPoint q].
Proof.
  intros PD dbg src calls b B ps NE PP PN EO EF. pose proof (run_total_aux PD dbg src calls b B NE PP PN EO) as H.
  intros fuel LE r cbs O. destruct (Good_dec ps (rev cbs)) as [G|G].
  - left. apply (H fuel LE r cbs O). left. apply good_fills. exact G.
  - right.
    assert (X : exists before cb after, cbs = before ++ cb :: after /\ Good ps (rev before) /\ ~ good_cb ps cb).
    { assert (NF : ~ Forall (good_cb ps) cbs) by (intro Q; apply G; apply Forall_rev; exact Q). clear - NF.
      induction cbs as [|c cbs IH]; [destruct NF; constructor|]. destruct (good_cb_dec ps c) as [D|D]; [|exists [], c, cbs; split; [reflexivity|split; [constructor|exact D]]].
      destruct IH as (b1 & cb & a & -> & H1 & H2); [intro Q; apply NF; constructor; auto|]. exists (c :: b1), cb, a. split; [reflexivity|]. split; auto.
      cbn [rev]. apply Forall_app. split; auto. }
    destruct X as (before & cb & after & -> & G1 & G2). exists before, cb, after.
    assert (NF : ~ fills_ccw ps (before ++ [cb])).
    { intro Q. apply fills_good in Q. rewrite rev_app_distr in Q. inversion Q. contradiction. }
    destruct (C22_first_inversion PD dbg fuel src calls b r before cb after B PP PN EO EF O (good_fills _ _ G1) NF) as (p & q & K).
    exists p, q. split; auto. split; [apply good_fills; auto|]. split; auto.
Qed.

(** ** the point events *)
Lemma enter_exit l : forall w v x w' rest, w ++ EvEnterPoint v :: x :: w' ++ rest = flat_map (fun ip : nat * list nat => [EvEnterPoint (fst ip); EvExitPoint (fst ip)]) l -> x = EvExitPoint v.
Proof.
  induction l as [|[i ps] l IH]; intros w v x w' rest H; [destruct w; discriminate|]. cbn in H.
  destruct w as [|a w]; cbn in H; [injection H as -> -> _; reflexivity|].
  destruct w as [|a' w]; cbn in H; [injection H; intros; discriminate|]. injection H as _ _ H. apply (IH w v x w' rest H).
Qed.
Lemma enter_last l w v rest : w ++ EvEnterPoint v :: rest = flat_map (fun ip : nat * list nat => [EvEnterPoint (fst ip); EvExitPoint (fst ip)]) l -> exists rest', rest = EvExitPoint v :: rest'.
Proof.
  revert w. induction l as [|[i ps] l IH]; intros w H; [destruct w; discriminate|]. cbn in H.
  destruct w as [|a w]; cbn in H; [injection H as -> ->; eauto|].
  destruct w as [|a' w]; cbn in H; [injection H; intros; discriminate|]. injection H as _ _ H. apply (IH w H).
Qed.
Lemma point_event_in (m : list callback) e l : point_events (map cb_event m) = e :: l ->
  exists m1 cb m2, m = m1 ++ cb :: m2 /\ cb_event cb = e /\ point_events (map cb_event m1) = [].
Proof.
  induction m as [|c m IH]; [discriminate|]. cbn [map]. change (cb_event c :: map cb_event m) with ([cb_event c] ++ map cb_event m). rewrite point_events_app. intro H.
  destruct (point_events [cb_event c]) as [|x y] eqn:Q.
  - destruct (IH H) as (m1 & cb & m2 & -> & H1 & H2). exists (c :: m1), cb, m2. split; [reflexivity|]. split; auto.
    cbn [map]. change (cb_event c :: map cb_event m1) with ([cb_event c] ++ map cb_event m1). rewrite point_events_app, Q, H2. reflexivity.
  - exists [], c, m. split; [reflexivity|]. split; [|reflexivity]. cbn in H. injection H as -> _. cbn in Q. destruct (cb_event c); try discriminate; injection Q as <- _; reflexivity.
Qed.

Lemma first_bad ps (cbs : list callback) : Good ps (rev cbs) \/ exists b1 c1 a1, cbs = b1 ++ c1 :: a1 /\ Good ps (rev b1) /\ ~ good_cb ps c1.
Proof.
  destruct (Good_dec ps (rev cbs)) as [G|G]; auto. right.
  assert (NF : ~ Forall (good_cb ps) cbs) by (intro Q; apply G; apply Forall_rev; exact Q). clear G.
  induction cbs as [|c cbs IH]; [destruct NF; constructor|]. destruct (good_cb_dec ps c) as [D|D]; [|exists [], c, cbs; split; [reflexivity|split; [constructor|exact D]]].
  destruct IH as (b1 & cb & a & -> & H1 & H2); [intro Q; apply NF; constructor; auto|]. exists (c :: b1), cb, a. split; [reflexivity|]. split; auto.
  cbn [rev]. apply Forall_app. split; auto.
Qed.
Lemma split_after {X} (P : X -> Prop) b1 (c1 : X) a1 : forall b2 c2 a2, b2 ++ c2 :: a2 = b1 ++ c1 :: a1 -> Forall P b2 -> P c2 -> ~ P c1 -> exists m, b1 = b2 ++ c2 :: m /\ a2 = m ++ c1 :: a1.
Proof.
  induction b1 as [|x b1 IH]; intros [|y b2] c2 a2 H F P2 P1; cbn in H.
  - injection H as -> _. contradiction.
  - injection H as -> _. inversion F. contradiction.
  - injection H as -> ->. exists b1. auto.
  - injection H as -> H. inversion F. destruct (IH b2 c2 a2 H) as (m & -> & ->); auto. exists m. auto.
Qed.

(** C22: on a mesh of counter-clockwise triangles the event of a point always completes - its exit follows its
    entry - and leaves a mesh of counter-clockwise triangles. *)
Theorem C22_point_event_completes : forall PD dbg src calls (b : Builder PD),
  builder_of PD src calls = Done b -> let ps := c_points (build PD b) in
  history_points PD src calls <> [] -> proper ps -> planar ps -> eps_ok ps -> exact_fills ps ->
  forall fuel, steps (length (history_points PD src calls)) <= fuel -> forall r before cb after v, observed dbg fuel (build PD b) = (r, before ++ cb :: after) ->
  cb_event cb = EvEnterPoint v -> fills_ccw ps before ->
  exists mid cb' rest, after = mid ++ cb' :: rest /\ cb_event cb' = EvExitPoint v /\ point_events (map cb_event mid) = [] /\ fills_ccw ps (before ++ cb :: mid).
Proof.
  intros PD dbg src calls b B ps NE PP PN EO EF.
  pose proof (run_total_aux PD dbg src calls b B NE PP PN EO) as H.
  intros fuel LE r before cb after v O EV F.
  destruct (C06_observer_protocol PD dbg fuel src calls b _ _ B O) as (l & _ & W).
  assert (W' : exists rest, point_events (map cb_event before) ++ EvEnterPoint v :: point_events (map cb_event after) ++ rest =
     flat_map (fun ip : nat * list nat => [EvEnterPoint (fst ip); EvExitPoint (fst ip)]) l).
  { assert (W1 : exists w rest, run_word l w /\ w = map cb_event (before ++ cb :: after) ++ rest) by (destruct r; [eexists _, []; rewrite app_nil_r; eauto|exact W..]).
    destruct W1 as (w & rest & (w' & Hw & Ew) & Q). apply sweep_word_events in Hw as [Hw _]. exists (point_events rest). rewrite <- Hw.
    assert (PE : point_events w = point_events w') by (rewrite Ew, point_events_app; cbn; apply app_nil_r). rewrite <- PE, Q, point_events_app, map_app, point_events_app. cbn [map]. rewrite EV.
    rewrite <- app_assoc. reflexivity. }
  assert (X : exists m m', after = m ++ m' /\ fills_ccw ps (before ++ cb :: m) /\ point_events (map cb_event m) <> []).
  { destruct (first_bad ps (before ++ cb :: after)) as [G|(b1 & c1 & a1 & EQ & G1 & G2)].
    - apply good_fills in G. exists after, []. rewrite app_nil_r. split; [reflexivity|]. split; auto.
      destruct (H fuel LE _ _ O) as [K _]. destruct K as (_ & t & ->); [auto|].
      destruct W as (w & Hw & Ew). apply sweep_word_events in Hw as [Hw _].
      assert (PE : point_events (map cb_event (before ++ cb :: after)) = point_events w) by (rewrite Ew, point_events_app; cbn; apply app_nil_r).
      rewrite Hw, map_app, point_events_app in PE. cbn [map] in PE. rewrite EV in PE.
      change (EvEnterPoint v :: map cb_event after) with ([EvEnterPoint v] ++ map cb_event after) in PE. rewrite point_events_app in PE.
      destruct (enter_last _ _ _ _ PE) as [rest' Q]. intro Q'. rewrite Q' in Q. discriminate.
    - assert (NF : ~ fills_ccw ps (b1 ++ [c1])) by (intro Q; apply fills_good in Q; rewrite rev_app_distr in Q; inversion Q; contradiction).
      assert (O' := O). rewrite EQ in O'.
      destruct (C22_first_inversion PD dbg fuel src calls b _ b1 c1 a1 B PP PN EO EF O' (good_fills _ _ G1) NF) as (p & q & _ & _ & es & PE).
      destruct (split_after (good_cb ps) b1 c1 a1 before cb after EQ) as (m & -> & ->); auto.
      + apply fills_good in F. unfold Good in F. apply Forall_rev in F. rewrite rev_involutive in F. exact F.
      + unfold good_cb. rewrite EV. exact I.
      + exists m, (c1 :: a1). split; [reflexivity|]. split; [apply good_fills; exact G1|]. intro Q.
        rewrite map_app, point_events_app in PE. cbn [map] in PE. rewrite EV in PE.
        change (EvEnterPoint v :: map cb_event m) with ([EvEnterPoint v] ++ map cb_event m) in PE. rewrite point_events_app, Q in PE. cbn in PE.
        apply app_inj_tail in PE as [_ PE]. discriminate. }
  destruct X as (m & m' & -> & FM & PM). destruct (point_events (map cb_event m)) as [|e l'] eqn:Q; [congruence|].
  destruct (point_event_in _ _ _ Q) as (m1 & cb' & m2 & -> & EV' & Q1). destruct W' as [rest W'].
  rewrite map_app, point_events_app, Q in W'. cbn [app] in W'. rewrite <- app_assoc in W'. apply enter_exit in W'. subst e.
  exists m1, cb', (m2 ++ m'). rewrite <- app_assoc. split; [reflexivity|]. split; auto. split; auto.
  intros c t IN. apply FM. apply in_app_or in IN as [IN|IN]; apply in_or_app; [auto|right]. destruct IN as [IN|IN]; [left; auto|right; apply in_or_app; auto].
Qed.

(** C28, C29, C30 where they hold: on an input whose right-leaning edges have only cups below them the run
    finishes - no panic, no undefined behaviour, no endless loop - and all its triangles are counter-clockwise. *)
Theorem C28_cup_inputs_complete_partial : forall PD dbg src calls (b : Builder PD),
  builder_of PD src calls = Done b -> let ps := c_points (build PD b) in
  history_points PD src calls <> [] -> proper ps -> planar ps -> eps_ok ps -> exact_fills ps ->
  (forall p q, input_edge ps p q -> ~ convex_below ps p q) ->
  exists t cbs, forall fuel, steps (length (history_points PD src calls)) <= fuel -> observed dbg fuel (build PD b) = (Done t, cbs) /\ fills_ccw ps cbs.
Proof.
  intros PD dbg src calls b B ps NE PP PN EO EF CUP. pose proof (run_total_aux PD dbg src calls b B NE PP PN EO) as H. set (f0 := steps (length (history_points PD src calls))) in *.
  destruct (observed dbg f0 (build PD b)) as [r cbs] eqn:O.
  destruct (H f0 (le_n _) _ _ O) as [K _]. destruct K as (F & t & ->). { right. apply tame_of; auto. apply PN. }
  exists t, cbs. intros fuel LE. split; auto. exact (fuel_irrelevant PD dbg f0 fuel (build PD b) _ _ O LE).
Qed.
End T.
