(** * PropsSteps: C51 - how much work a run does

    [rotations cbs] counts the rotations announced among the callbacks cbs ([EvRotated]: LegalTotal.v).
    [steps n] is 11 (n + 4)^2 (PropsTotal.v).  The [fuel] of a run bounds the number of turns of each of its
    loops and the depth of nested calls. *)
From Coq Require Import List Arith Bool Lia ZArith.
From Verif Require Import Base Num Shape ShapeSpec Utils Points Triangles Front Sweeper Cdt F64 Lists BuilderSpec History SortSpec Monad Traverse TraceSpec Grow
  Exact F64Exact Spec PropsBuilder PropsTrace PropsSafe FrontSpec Geom Mesh Rotate Setup Legal Legalize Boundary Chain Remap Attach FrontInv Winding Cover CoverRun Lawson Disc Good Marks Flips Init PropsFront Fills MeshRun MeshStart LegalTotal
  Cone Planar Corridor Frames Insert PropsMesh PropsFinal FanAll Total FrontSub FillTotal EdgeFill NoCross CorTotal InsertTotal EdgeTotal RunTotal Local Fuel PropsTotal F64Exact FloatLaws PropsMarks PropsCup.
Import ListNotations.

Section S.
Context {A : Arith} {E : Exact A}.

(** a run without an inverted triangle that finishes at all finishes in [steps n], n the number of points *)
Theorem C51_runs_are_quadratic : forall PD dbg src calls (b : Builder PD) fuel t cbs,
  builder_of PD src calls = Done b -> let ps := c_points (build PD b) in
  history_points PD src calls <> [] -> proper ps -> planar ps -> eps_ok ps ->
  observed dbg fuel (build PD b) = (Done t, cbs) -> fills_ccw ps cbs ->
  forall fuel', steps (length (history_points PD src calls)) <= fuel' -> observed dbg fuel' (build PD b) = (Done t, cbs).
Proof.
  intros PD dbg src calls b fuel t cbs B ps NE PP PN EO O F fuel' LE.
  destruct (Nat.le_ge_cases fuel fuel') as [L|L]; [exact (fuel_irrelevant PD dbg fuel fuel' (build PD b) _ _ O L)|].
  destruct (observed dbg fuel' (build PD b)) as [r' cbs'] eqn:O'.
  pose proof (fuel_irrelevant PD dbg fuel' fuel (build PD b) _ _ O' L) as FI.
  destruct r' as [t'|p|u|]; rewrite O in FI; try (symmetry; exact FI).
  exfalso. cbn [snd] in FI. destruct FI as [more ->].
  destruct (C28_completes_or_inverts PD dbg src calls b B NE PP PN EO fuel' LE _ _ O') as [t' Q]; [|discriminate].
  intros cb x IN. apply F. apply in_or_app. left. exact IN.
Qed.

(** ** the rotations of one legalization *)
Lemma pairs_cap N (l : list (nat * nat)) : NoDup l -> (forall e, In e l -> fst e < N /\ snd e < N /\ fst e <> snd e) -> length l <= N * N - N.
Proof.
  intros ND H. set (d := map (fun x => (x, x)) (seq 0 N)).
  assert (Dl : forall e, In e l -> ~ In e d). { intros e I1' I2'. apply in_map_iff in I2' as (x & <- & _). destruct (H _ I1') as (_ & _ & Q). apply Q. reflexivity. }
  assert (NDd : NoDup d) by (apply FinFun.Injective_map_NoDup; [intros x y Q; injection Q; auto|apply seq_NoDup]).
  assert (IN : incl (l ++ d) (list_prod (seq 0 N) (seq 0 N))).
  { intros [x y] I'. apply in_prod_iff. rewrite !in_seq. apply in_app_or in I' as [I'|I']; [apply H in I'; cbn [fst snd] in I'; lia|].
    apply in_map_iff in I' as (w & Q & I'). injection Q as <- <-. apply in_seq in I'. lia. }
  assert (NDA : NoDup (l ++ d)).
  { clear - ND NDd Dl. induction l as [|e l IH]; [exact NDd|]. inversion ND; subst. cbn [app]. constructor.
    - intro I'. apply in_app_or in I' as [I'|I']; [contradiction|]. exact (Dl e (or_introl eq_refl) I').
    - apply IH; [assumption|]. intros e' I'. apply Dl. right. exact I'. }
  pose proof (NoDup_incl_length NDA IN) as LE. rewrite app_length, prod_length, !seq_length in LE. unfold d in LE. rewrite map_length, seq_length in LE. lia.
Qed.

Section Run.
Variable ps : Points.
Hypothesis PP : proper ps.
Notation N := (npts ps).
Notation zc := (zc ps).

Lemma rotations_app l m : rotations (l ++ m) = rotations l + rotations m.
Proof. unfold rotations. rewrite filter_app, app_length. reflexivity. Qed.

(** what a callback during a legalization shows: m announced rotations leave m pairs that stay apart *)
Lemma segment_rank cb0 a : cb_event cb0 = EvWillLegalize a -> forall m mid cb l, rev (cb0 :: mid ++ [cb]) = m -> (forall c, In c (mid ++ [cb]) -> during (cb_event c) = true) ->
  gclaims ps (m ++ l) -> Good ps (m ++ l) -> rank N zc (rotations mid) (cb_tris cb) /\ claim ps cb (rev (cb0 :: mid) ++ l).
Proof.
  intros E0 m mid. revert m. induction mid as [|x mid IH] using rev_ind; intros m cb l <- DU GC G.
  - cbn [app rev] in *. destruct GC as [C GC]. assert (C1 := C G). split; [|exact C1].
    apply rank_0.
  - assert (RV : rev (cb0 :: (mid ++ [x]) ++ [cb]) ++ l = cb :: (rev (cb0 :: mid ++ [x]) ++ l)) by (cbn [rev]; rewrite !rev_app_distr; cbn [rev app]; reflexivity).
    rewrite RV in *. destruct GC as [C GC]. assert (C1 := C G). split; [|exact C1]. inversion G as [|? ? _ G']; subst.
    destruct (IH _ x l eq_refl) as [RK CX]; auto. { intros c Ic. apply DU. apply in_or_app. left. exact Ic. }
    destruct (c_step _ _ _ C1) as (prev & l' & Q & SR). { apply DU. apply in_or_app. right. left. reflexivity. }
    assert (Q2 : rev (cb0 :: mid ++ [x]) ++ l = x :: (rev (cb0 :: mid) ++ l)) by (cbn [rev]; rewrite rev_app_distr; reflexivity).
    rewrite Q2 in Q. injection Q as <- _. rewrite rotations_app.
    destruct SR as [(a1 & b1 & i & j & need & EV & FS)|[NR ->]].
    + assert (QR : rotations [x] = 1) by (unfold rotations; cbn [filter]; unfold is_rotation; rewrite EV; reflexivity). rewrite QR, Nat.add_1_r.
      destruct (c_rot _ _ _ CX _ _ EV) as (a2 & b2 & i2 & j2 & Qa & Qb & PR2 & _ & IC). injection Qa as <-. injection Qb as <-.
      pose proof (fs_paired _ _ _ _ _ _ _ _ _ _ FS) as PR. pose proof (c_mesh _ _ _ CX) as M.
      destruct PR as (La & Lb & Hp1 & Hp2 & OP). destruct PR2 as (_ & _ & _ & _ & OP2).
      destruct (opposed_once (m_ccw M _ La) (m_ccw M _ Lb) OP OP2) as [-> ->].
      destruct (c_bnd _ _ _ CX) as [R0 BD].
      eapply rank_flip; [exact M|exact FS|exact IC| |exact RK]. intros k p t u. exact (once ps PP (cb_tris x) _ _ M (c_fo _ _ _ CX) BD k p t u).
    + assert (QR : rotations [x] = 0). { unfold rotations; cbn [filter]; unfold is_rotation. destruct (cb_event x) eqn:EV; try reflexivity. destruct (NR _ _ eq_refl). }
      rewrite QR, Nat.add_0_r. exact RK.
Qed.
Lemma segment_bound cb0 a mid l : cb_event cb0 = EvWillLegalize a -> (forall c, In c mid -> during (cb_event c) = true) ->
  gclaims ps (rev (cb0 :: mid) ++ l) -> Good ps (rev (cb0 :: mid) ++ l) -> 2 * rotations mid <= N * N - N.
Proof.
  intros E0 DU GC G. destruct mid as [|x mid _] using rev_ind; [cbn; lia|].
  destruct (segment_rank cb0 a E0 _ mid x l eq_refl DU GC G) as [RK CX]. rewrite rotations_app.
  destruct (is_rotation x) eqn:IR; unfold rotations at 2; cbn [filter]; rewrite IR; cbn [length].
  - unfold is_rotation in IR. destruct (cb_event x) as [| | | | | |t ot| |] eqn:EV; try discriminate.
    destruct (c_rot _ _ _ CX _ _ EV) as (a2 & b2 & i & j & -> & -> & PR & _ & IC). pose proof (c_mesh _ _ _ CX) as M. destruct (c_bnd _ _ _ CX) as [R0 BD].
    destruct RK as (p & ND & L & H).
    pose proof (not_dead N zc (cb_tris x) a2 i b2 j M PR (fun k p t u => once ps PP (cb_tris x) _ _ M (c_fo _ _ _ CX) BD k p t u)) as NX. cbv beta in NX.
    set (u := tv (cb_tris x) a2 (nxt i)) in *. set (v := tv (cb_tris x) a2 (prv i)) in *.
    assert (La : a2 < length (cb_tris x)) by apply PR. pose proof (m_range M a2 (nxt i) La) as Ru. pose proof (m_range M a2 (prv i) La) as Rv. fold u in Ru. fold v in Rv.
    assert (NE : u <> v). { intro Q. assert (X := m_ccw M a2 La). pose proof (tv_inj X Q) as Q2. destruct i; discriminate Q2. }
    assert (C2 : length ((u, v) :: (v, u) :: p) <= N * N - N).
    { apply pairs_cap.
      - constructor; [intros [Q|I']; [injection Q; congruence|apply NX, H, I']|]. constructor; [|exact ND]. intro I'. apply NX. apply dead_swap. apply H. exact I'.
      - intros e [<-|[<-|Ie]]; cbn [fst snd]; [auto|auto|]. destruct (H e Ie) as (H1 & H2 & H3). split; [exact H1|]. split; [exact H2|]. intro Q. destruct e as [e1 e2]. cbn [fst snd] in Q. subst e2. exact (dead_ne _ _ _ H3). }
    cbn [length] in C2. rewrite L in C2. lia.
  - pose proof (rank_cap _ _ _ _ RK). lia.
Qed.
End Run.

(** Between the announcement of a legalization and its end the observer is told of at most
    (n + 2) (n + 1) / 2 rotations, n the number of points. *)
Theorem C51_rotations_of_a_legalization : forall PD dbg fuel src calls (b : Builder PD) r before cb mid after t,
  builder_of PD src calls = Done b -> let ps := c_points (build PD b) in
  proper ps -> scan_sound ps -> observed dbg fuel (build PD b) = (r, before ++ cb :: mid ++ after) ->
  fills_ccw ps (before ++ cb :: mid) -> cb_event cb = EvWillLegalize t ->
  (forall c, In c mid -> match cb_event c with EvLegalizeStep _ | EvRotated _ _ | EvLegalized _ => True | _ => False end) ->
  let n := length (history_points PD src calls) in
  2 * length (filter (fun c => match cb_event c with EvRotated _ _ => true | _ => false end) mid) <= (n + 2) * (n + 1).
Proof.
  intros PD dbg fuel src calls b r before cb mid after t B ps PP SC O F EV DU n.
  pose proof (builder_of_points PD src calls b B) as (B1 & _ & _).
  assert (NP : npts ps = n + 2).
  { change (length (pb_points (bd_points b) ++ [head_point (pb_points (bd_points b)); tail_point (pb_points (bd_points b))]) = n + 2).
    rewrite app_length, B1. reflexivity. }
  pose proof (run_gclaims PD dbg fuel src calls b r _ B PP SC O) as GC.
  assert (RV : rev (before ++ cb :: mid ++ after) = rev after ++ rev (cb :: mid) ++ rev before).
  { change (cb :: mid ++ after) with ((cb :: mid) ++ after). rewrite !rev_app_distr, <- app_assoc. reflexivity. }
  rewrite RV in GC. assert (GC2 : gclaims ps (rev (cb :: mid) ++ rev before)).
  { clear - GC. fold ps in GC. induction (rev after) as [|c l IH]; [exact GC|]. destruct GC as [_ GC]. auto. }
  apply fills_good in F. rewrite rev_app_distr in F.
  pose proof (segment_bound ps PP cb t mid (rev before) EV) as SB. rewrite NP in SB.
  assert (X : 2 * rotations mid <= (n + 2) * (n + 2) - (n + 2)).
  { apply SB; auto. intros c Ic. specialize (DU c Ic). destruct (cb_event c); try contradiction; reflexivity. }
  unfold rotations in X. change (fun c => match cb_event c with EvRotated _ _ => true | _ => false end) with is_rotation. lia.
Qed.
End S.

(** Non-vacuity: the run of [mesh_example] (PropsMesh.v) meets the hypotheses of both theorems; its second callback
    announces a legalization, the next five are about it, and one of them is a rotation. *)
Example steps_example : exists (b : @Builder F64 unit) t (cbs before : list (@callback F64)) cb mid after a, builder_of unit mesh_src [] = Done b /\
  let ps := c_points (build unit b) in
  history_points unit mesh_src [] <> [] /\ proper ps /\ planar ps /\ scan_sound ps /\ eps_ok ps /\
  observed false 200 (build unit b) = (Done t, cbs) /\ fills_ccw ps cbs /\
  cbs = before ++ cb :: mid ++ after /\ fills_ccw ps (before ++ cb :: mid) /\ cb_event cb = EvWillLegalize a /\
  (forall c, In c mid -> match cb_event c with EvLegalizeStep _ | EvRotated _ _ | EvLegalized _ => True | _ => False end) /\
  length (filter (fun c => match cb_event c with EvRotated _ _ => true | _ => false end) mid) = 1.
Proof.
  assert (R : match builder_of unit mesh_src [] with
    | Done b => let cbs := snd (observed false 200 (build unit b)) in
        forallb (fun c => match cb_event c with EvLegalizeStep _ | EvRotated _ _ | EvLegalized _ => true | _ => false end) (firstn 5 (skipn 2 cbs)) &&
        (length (filter (fun c => match cb_event c with EvRotated _ _ => true | _ => false end) (firstn 5 (skipn 2 cbs))) =? 1) &&
        match skipn 1 cbs with c :: _ => match cb_event c with EvWillLegalize _ => true | _ => false end | [] => false end
    | _ => false end = true) by (vm_compute; reflexivity).
  assert (R1 : match builder_of unit mesh_src [] with Done b => fillsb (c_points (build unit b)) && planeb (c_points (build unit b)) (history_edges unit mesh_src []) | _ => false end = true) by (vm_compute; reflexivity).
  destruct mesh_example as (b & t & cbs & H1 & H2 & H3 & H4 & H5 & H6 & _). rewrite H1 in R, R1. cbv zeta in R. rewrite H5 in R. cbn [snd] in R.
  rewrite !andb_true_iff in R. destruct R as ((R2 & R3) & R4). apply Nat.eqb_eq in R3. rewrite forallb_forall in R2.
  destruct (skipn 1 cbs) as [|cb l] eqn:Q; [discriminate|]. assert (exists a, cb_event cb = EvWillLegalize a) as [a EV] by (destruct (cb_event cb); try discriminate; eauto). clear R4.
  assert (Q2 : skipn 2 cbs = l).
  { destruct cbs as [|x cbs]; [discriminate Q|]. cbn [skipn] in Q |- *. destruct cbs as [|y cbs]; [discriminate Q|]. injection Q as _ <-. reflexivity. }
  rewrite Q2 in R2, R3. assert (X : cbs = firstn 1 cbs ++ cb :: firstn 5 l ++ skipn 5 l) by (rewrite (firstn_skipn 5 l), <- Q; symmetry; apply firstn_skipn).
  exists b, t, cbs, (firstn 1 cbs), cb, (firstn 5 l), (skipn 5 l), a. split; [exact H1|]. cbv zeta. apply andb_true_iff in R1 as [R1 R5]. destruct (fillsb_ok _ R1) as [X1 X2]. pose proof (plane_planar unit mesh_src [] b F64_eq_not_lt F64_eq_sym H1 (planeb_ok _ _ R5)) as PN.
  split; [discriminate|]. split; [exact H2|]. split; [exact PN|]. split; [exact H3|]. split; [assumption|]. split; [exact H5|]. split; [exact H6|]. split; [exact X|]. split.
  - intros c a' IN. apply (H6 c a'). rewrite X. change (cb :: firstn 5 l ++ skipn 5 l) with ((cb :: firstn 5 l) ++ skipn 5 l). rewrite app_assoc. apply in_or_app. left. exact IN.
  - split; [exact EV|]. split; [|exact R3]. intros c Ic. specialize (R2 c Ic). destruct (cb_event c); try discriminate; exact I.
Qed.
Print Assumptions C51_runs_are_quadratic.
Print Assumptions C51_rotations_of_a_legalization.
