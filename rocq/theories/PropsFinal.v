(** * PropsFinal: C12 - once the sweep is over the run completes *)
From Coq Require Import List Arith Bool Lia ZArith Permutation.
From Verif Require Import Base Num Shape ShapeSpec Utils Points Triangles Front Sweeper Cdt F64 Lists BuilderSpec History SortSpec Monad TraceSpec Safe SafeSweep Flood
  Exact F64Exact Spec PropsBuilder PropsTrace PropsSafe FrontSpec Geom Mesh Rotate Setup Boundary Chain FrontInv FanAll Good PropsMesh.
Import ListNotations.

Lemma blocks_no_done b : blocks b -> ~ In EvSweepDone b.
Proof.
  induction 1 as [|t body l F _ IH]; [intros []|]. intros [H|H]; [discriminate|]. apply in_app_or in H as [H|[H|H]]; [|discriminate|auto].
  rewrite Forall_forall in F. exact (F _ H).
Qed.
Lemma edges_no_done q ps w : edges_word q ps w -> ~ In EvSweepDone w.
Proof.
  induction 1 as [|p ps b w B _ IH]; [intros []|]. intro H. apply in_app_or in H as [H|[H|H]]; [exact (blocks_no_done b B H)|discriminate|auto].
Qed.
Lemma sweep_no_done l w : sweep_word l w -> ~ In EvSweepDone w.
Proof.
  induction 1 as [|i ps l b we w B W _ IH]; [intros []|]. intros [H|H]; [discriminate|]. apply in_app_or in H as [H|[H|H]]; [exact (blocks_no_done b B H)|discriminate|].
  apply in_app_or in H as [H|H]; [exact (edges_no_done _ _ _ W H)|auto].
Qed.

Section S.
Context {A : Arith} {E : Exact A}.

Lemma finalize_total ps pts low m fuel s : RE ps pts low m s -> 4 * m + 1 < fuel ->
  (forall e t, nth_error (nodes (s_front s)) 1 = Some e -> en_tri e = Some t -> exists x, find_interior fuel (s_tris s) (en_pid e) (Some t) = Done x) ->
  wp (finalize_polygon fuel) s (fun _ _ => False) (fun _ s' => s_trace s' = s_trace s).
Proof using.
  intros (H1 & H2 & H3) Lf W. unfold finalize_polygon. apply wp_bind, wp_get_front. unfold front_nth.
  destruct (nth_error (nodes (s_front s)) 1) as [e|] eqn:E1; [|apply wp_skip; auto]. simpl.
  destruct (en_tri e) as [t|] eqn:E2; [|apply wp_skip; auto].
  apply wp_bind, wp_get_tris, wp_bind, wp_lift. destruct (W e t eq_refl E2) as [x Fi].
  assert (Ve : vt m (en_tri e)). { destruct H2 as [F _]. rewrite Forall_forall in F. apply F. eapply nth_error_In; eauto. }
  rewrite E2 in Ve.
  pose proof (find_interior_okr (length (ps_points ps)) m false low (s_tris s) (en_pid e) H1 fuel (Some t) Ve) as K. rewrite Fi in K.
  rewrite Fi. cbn [okr] in *. destruct x as [seed|]; cbn [tid_invalid negb]; [|apply wp_skip; auto].
  destruct (fan_seed _ _ _ _ K) as (tr & k & T1 & T2 & T3).
  assert (Ls : seed < m). { apply nth_error_lt in T1. destruct H1 as [L0 _]. lia. }
  eapply wp_mono; [apply (clean_mesh_wp (length (ps_points ps)) m _ H1 fuel seed s eq_refl H3 Ls)| |].
  - intros f s' (_ & _ & ?). lia.
  - intros ? s' (_ & _ & K' & _). exact K'.
Qed.

(** C12: if the observer is told that the sweep is over, the rest of the run (the walk to the seed
    triangle, the flood fill, the construction of the result) terminates without a panic; the number of
    steps is bounded by the size of the mesh and of the input. *)
Theorem C12_completes_after_sweep : forall PD dbg fuel src calls (b : Builder PD) r before cb after,
  builder_of PD src calls = Done b -> let ps := c_points (build PD b) in
  proper ps -> scan_sound ps -> observed dbg fuel (build PD b) = (r, before ++ cb :: after) ->
  cb_event cb = EvSweepDone -> fills_ccw ps (before ++ [cb]) ->
  4 * length (cb_tris cb) + 1 < fuel -> length (history_points PD src calls) + 3 < fuel ->
  exists t, r = Done t.
Proof.
  intros PD dbg fuel src calls b r before cb after B ps PP SC O EV F L1 L2.
  pose proof (claim_at PD dbg fuel src calls b r before cb after B PP SC O F) as CL.
  pose proof (items_ok PD src calls b B) as (l & L & FI).
  apply builder_of_points in B as (B1 & _ & W). pose proof O as O'.
  apply observed_run in O as (r' & s & R & TRC & _ & ->).
  assert (N2 : length (ps_points (c_points (build PD b))) = length (history_points PD src calls) + 2)
    by (simpl; rewrite app_length; rewrite B1; reflexivity).
  assert (G : exists u, r' = Done u). 2:{ destruct G as [u ->]. cbn. eauto. }
  unfold run in R. fold ps in R, L, FI, N2. 
  assert (Ri : exists s0, run_init ps = Done s0).
  { destruct (run_init ps) as [s0|p|u|] eqn:Ri; [eauto| | |]; injection R as <- <-; cbn in TRC; destruct before; discriminate. }
  destruct Ri as [s0 Ri]. rewrite Ri in R. set (pts := pb_points (bd_points b)) in *. assert (H0 : RE ps pts (starts_low pts) 1 s0 /\ s_trace s0 = []) by (apply run_init_RE in Ri; exact Ri).
  destruct H0 as [H0 T0].
  pose proof (sweep_loop_safe dbg ps pts (starts_low pts) fuel l FI s0 (ex_intro _ 1 H0) ltac:(unfold TR; rewrite T0; constructor)) as SS.
  pose proof (sweep_loop_wp dbg ps fuel l s0 [] ltac:(unfold evs; rewrite T0; reflexivity)) as SW.
  unfold run_body, sweep_points, bind, lift in R. rewrite L in R.
  unfold wp in SS, SW.
  assert (IN : In EvSweepDone (evs s)).
  { unfold evs. rewrite map_rev, <- in_rev. rewrite <- EV. apply in_map. apply in_rev. rewrite <- TRC. apply in_or_app. right. left. auto. }
  destruct (sweep_loop dbg ps fuel l s0) as [r1 s1] eqn:Q.
  assert (D1 : exists u, r1 = Done u).
  { destruct r1 as [u|p|u|]; [eauto| | |]; injection R as <- <-; exfalso; destruct SW as (w & rest & W1 & W2); apply (sweep_no_done _ _ W1);
      cbn [app] in W2; rewrite W2; apply in_or_app; left; exact IN. }
  destruct D1 as [[] ->]. destruct SW as (w & W1 & W2). cbn [app] in W2. destruct SS as ((m & M1) & M2 & _).
  unfold emit in R at 1. 
  set (s1' := mkSw _ _ _ _) in R.
  assert (M5 : RE ps pts (starts_low pts) m s1') by (destruct M1 as (M1 & M3 & M4); repeat split; auto; apply M1 || apply M3).
  (* the callback is the one just made *)
  assert (TS : exists x, s_trace s = x ++ mkCb EvSweepDone (s_tris s1) (s_front s1) (s_result s1) :: s_trace s1 /\ (x = [] \/ exists c, x = [c] /\ cb_event c <> EvSweepDone)).
  { pose proof (trace_only (fun s' => s_trace s' = s_trace s1') ltac:(cbv beta; intros; congruence) fuel s1' eq_refl) as TO. unfold wp in TO.
    destruct (finalize_polygon fuel s1') as [r2 s2]. destruct r2 as [u2|p|u2|]; cbv beta in TO.
    - unfold emit in R. injection R as <- <-. cbn [s_trace]. rewrite TO. eexists [_]. split; [reflexivity|right; eexists; split; [reflexivity|discriminate]].
    - injection R as <- <-. exists []. split; [rewrite TO; reflexivity|auto].
    - injection R as <- <-. exists []. split; [rewrite TO; reflexivity|auto].
    - injection R as <- <-. exists []. split; [rewrite TO; reflexivity|auto]. }
  assert (CB : cb = mkCb EvSweepDone (s_tris s1) (s_front s1) (s_result s1)).
  { destruct TS as (x & TS & Hx). assert (I0 : In cb (s_trace s)) by (apply in_rev; rewrite <- TRC; apply in_or_app; right; left; auto).
    rewrite TS in I0. apply in_app_or in I0 as [I0|[I0|I0]]; [|auto|].
    - destruct Hx as [->|(c & -> & Hc)]; [destruct I0|]. destruct I0 as [<-|[]]. contradiction.
    - exfalso. apply (sweep_no_done _ _ W1). rewrite <- W2. unfold evs. rewrite map_rev, <- in_rev, <- EV. apply in_map. auto. }
  assert (LM : m = length (cb_tris cb)) by (destruct M1 as ((LM & _) & _); rewrite CB; cbn; auto).
  pose proof (finalize_total ps pts (starts_low pts) m fuel s1' M5 ltac:(rewrite LM; exact L1)) as FT.
  assert (WK : forall e t, nth_error (nodes (s_front s1')) 1 = Some e -> en_tri e = Some t -> exists x, find_interior fuel (s_tris s1') (en_pid e) (Some t) = Done x).
  { intros e t N1 TE. change (s_front s1') with (s_front s1) in *. change (s_tris s1') with (s_tris s1).
    assert (C2 := CL). rewrite CB in C2. destruct (c_outer _ _ _ C2 eq_refl) as [BD _]. cbn in BD.
    pose proof (c_mesh _ _ _ C2) as MM. cbn in MM. destruct (c_fo _ _ _ C2) as [CH _]. cbn in CH.
    destruct (front_third ps PP (s_tris s1) (nodes (s_front s1)) MM CH BD) as (e1 & e' & a & N1' & N2' & TA).
    assert (e1 = e) as -> by congruence. assert (a = t) as -> by congruence.
    destruct (ch_first _ _ CH) as (e0 & N0 & H0').
    assert (AD0 : adjacent (nodes (s_front s1)) e0 e) by (exists 0; auto). assert (AD1 : adjacent (nodes (s_front s1)) e e') by (exists 1; auto).
    apply (walk_total ps PP (s_tris s1) (nodes (s_front s1)) MM CH BD e0 e e' t AD0 AD1 TA).
    - apply (LX ps PP (nodes (s_front s1)) CH e0 e e' AD0 AD1 H0').
    - unfold npts. fold ps. lia. }
  specialize (FT WK). unfold wp in FT. destruct (finalize_polygon fuel s1') as [r2 s2]. destruct r2 as [u2|p|u2|]; try contradiction.
  unfold emit in R. injection R as <- <-. eauto.
Qed.
End S.
Print Assumptions C12_completes_after_sweep.

(** Non-vacuity: the run of [mesh_example] (PropsMesh.v: proper, scan_sound, fills_ccw) announces the end of the
    sweep, with fuel beyond the bound. *)
Example final_example : exists (b : @Builder F64 unit) r before cb after, builder_of unit mesh_src [] = Done b /\
  proper (c_points (build unit b)) /\ scan_sound (c_points (build unit b)) /\
  observed false 200 (build unit b) = (r, before ++ cb :: after) /\ cb_event cb = EvSweepDone /\
  fills_ccw (c_points (build unit b)) (before ++ [cb]) /\ 4 * length (cb_tris cb) + 1 < 200 /\ length (history_points unit mesh_src []) + 3 < 200.
Proof.
  destruct mesh_example as (b & t & cbs & H1 & H2 & H3 & _ & H4 & H5 & _ & _).
  destruct (C11_result_is_region unit false 200 mesh_src [] b t cbs H1 H4) as (pre & cbD & cbF & Q & ED & _).
  exists b, (Done t), pre, cbD, [cbF]. split; auto. split; auto. split; auto. split; [rewrite H4, Q; reflexivity|]. split; [exact ED|]. split.
  - intros cb t' IN. apply (H5 cb t'). rewrite Q. apply in_app_or in IN as [IN|[<-|[]]]; apply in_or_app; [left|right; left]; auto.
  - split; [|vm_compute; lia].
    assert (R : match builder_of unit mesh_src [] with
      | Done b => forallb (fun cb => 4 * length (cb_tris cb) + 1 <? 200) (snd (observed false 200 (build unit b))) | _ => false end = true) by (vm_compute; reflexivity).
    rewrite H1, H4 in R. cbn [snd] in R. rewrite forallb_forall in R. apply Nat.ltb_lt. apply (R cbD). rewrite Q. apply in_or_app. right. left. auto.
Qed.
