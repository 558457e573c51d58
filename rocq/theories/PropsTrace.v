(** * PropsTrace: C04, C05, C06, C07, C08 - the observer callbacks *)
From Coq Require Import List Arith Bool Lia Permutation Sorted ZArith.
From Verif Require Import Base Num Shape Points Triangles Front Sweeper Cdt F64 Monad Lists BuilderSpec History
  FloatLaws SortSpec Exact F64Exact Traverse TraceSpec Grow Spec PropsBuilder.
Import ListNotations.

Section S.
Context {A : Arith}.

(** what an observer that just records everything sees *)
Definition observed {PD} dbg fuel (c : CDT PD) : res (Triangles PD) * list callback :=
  triangulate_with_observer dbg PD fuel c (fun o cb => o ++ [cb]) [].

Lemma fold_collect {X} (l : list X) : forall acc, fold_left (fun o cb => o ++ [cb]) l acc = acc ++ l.
Proof. induction l as [|x l IH]; intro acc; simpl; [rewrite app_nil_r; auto|]. rewrite IH, <- app_assoc. reflexivity. Qed.
Lemma observed_run {PD} dbg fuel (c : CDT PD) r cbs : observed dbg fuel c = (r, cbs) ->
  exists r' s, run dbg fuel (c_points c) = (r', s) /\ cbs = rev (s_trace s) /\ map cb_event cbs = evs s /\
    r = (let! _ := r' in Done (mkTriangles PD (c_points c) (c_data c) (s_tris s) (s_result s) 0)).
Proof.
  unfold observed, triangulate_with_observer. destruct (run dbg fuel (c_points c)) as [r' s].
  rewrite fold_collect. simpl. intro H; injection H as <- <-. eauto 10.
Qed.

Lemma mapM_ok {X Y} (f : X -> res Y) (P : X -> Y -> Prop) l : (forall x, In x l -> exists y, f x = Done y /\ P x y) ->
  exists ys, mapM f l = Done ys /\ Forall2 P l ys.
Proof.
  induction l as [|x l IH]; simpl; intro H; [eauto|].
  destruct (H x (or_introl eq_refl)) as (y & -> & Py). destruct IH as (ys & -> & F); auto. simpl. eauto.
Qed.
Lemma iter_point_ok pts edges : length edges = length pts ->
  exists l, iter_point_by_y (points_new pts edges) 1 = Done l /\
   Forall2 (fun id x => fst (fst x) = id /\ nth_error pts id = Some (snd (fst x)) /\ nth_error edges id = Some (snd x))
     (tl (ps_y_sorted (points_new pts edges))) l.
Proof.
  intro L. unfold iter_point_by_y.
  replace (skipn 1 (ps_y_sorted (points_new pts edges))) with (tl (ps_y_sorted (points_new pts edges)))
    by (destruct (ps_y_sorted (points_new pts edges)); reflexivity).
  apply mapM_ok. intros id H.
  assert (B : id < length pts).
  { assert (In id (ps_y_sorted (points_new pts edges))) as H' by (destruct (ps_y_sorted (points_new pts edges)); simpl in *; auto).
    apply (Permutation_in _ (y_sorted_perm pts edges)) in H'. apply in_seq in H'. lia. }
  simpl. unfold get_unchecked. rewrite !nth_error_app1 by lia.
  destruct (nth_error_ex pts id B) as [p ->]. destruct (nth_error_ex edges id) as [e ->]; [lia|]. simpl.
  exists (id, p, e). auto.
Qed.

(** The order in which points are processed, with the lower neighbours of each:
    the (y,x)-lowest point is not in it. *)
Definition sweep_order {PD} (b : Builder PD) (l : list (nat * list nat)) : Prop :=
  map fst l = tl (ps_y_sorted (c_points (build PD b))) /\
  Forall (fun ie => exists e, nth_error (pb_edges (bd_points b)) (fst ie) = Some e /\ snd ie = edges_list e) l.

Lemma ids_fst (P : nat -> nat * Point * PointEdges -> Prop) ids l : Forall2 (fun id x => fst (fst x) = id /\ P id x) ids l ->
  map fst (ids_of l) = ids.
Proof. induction 1 as [|id x ids l (H & _) F IH]; simpl; [reflexivity|]. rewrite H. f_equal. exact IH. Qed.

Lemma run_events {PD} dbg fuel src calls (b : Builder PD) : builder_of PD src calls = Done b ->
  exists l, sweep_order b l /\
    match run dbg fuel (c_points (build PD b)) with
    | (Done _, s) => run_word l (evs s)
    | (_, s) => exists w rest, run_word l w /\ w = evs s ++ rest
    end.
Proof.
  intro B. apply builder_of_points in B as (B1 & B2 & W). unfold bd_wf, wf_pb in W.
  destruct (iter_point_ok (pb_points (bd_points b)) (pb_edges (bd_points b)) W) as (l & E & F).
  exists (ids_of l). split.
  - split.
    + clear E. exact (ids_fst _ _ _ F).
    + unfold ids_of. rewrite Forall_forall. intros ie H. apply in_map_iff in H as (x & <- & H). simpl.
      clear E. revert F. generalize (tl (ps_y_sorted (points_new (pb_points (bd_points b)) (pb_edges (bd_points b))))).
      intros ids F. induction F as [|id y ids l (H1 & H2 & H3) F IH]; [destruct H|]. destruct H as [->|H]; [|auto].
      exists (snd x). rewrite H1. auto.
  - change (c_points (build PD b)) with (points_new (pb_points (bd_points b)) (pb_edges (bd_points b))).
    set (ps := points_new _ _) in *. unfold run.
    assert (P0 : exists w' rest, run_word (ids_of l) w' /\ w' = evs (@empty_sweeper A) ++ rest).
    { destruct (sweep_word_ex (ids_of l)) as [w Hw]. exists (w ++ [EvSweepDone; EvFinalized]), (w ++ [EvSweepDone; EvFinalized]).
      split; [exists w; auto|reflexivity]. }
    destruct (run_init ps) as [s| | |] eqn:R; try exact P0.
    assert (T : evs s = []).
    { unfold run_init in R. destruct (unwrap P_no_points (get_id_by_y ps 0)); try discriminate. simpl in R.
      destruct (front_new _ _ _); try discriminate. simpl in R. injection R as <-. reflexivity. }
    pose proof (run_body_wp dbg ps fuel s (ids_of l) T) as K.
    unfold order_of in K. rewrite E in K. specialize (K eq_refl).
    unfold wp in K. destruct (run_body dbg fuel ps s) as [[x|p|u|] s']; auto.
Qed.

(** C06.  Whatever the outcome, the callbacks form a word of the language
    [run_word] (TraceSpec.v), or - if the run failed - a prefix of one. *)
Theorem C06_observer_protocol : forall PD dbg fuel src calls (b : Builder PD) r cbs,
  builder_of PD src calls = Done b -> observed dbg fuel (build PD b) = (r, cbs) ->
  exists l, sweep_order b l /\
    match r with
    | Done _ => run_word l (map cb_event cbs)
    | _ => exists w rest, run_word l w /\ w = map cb_event cbs ++ rest
    end.
Proof.
  intros PD dbg fuel src calls b r cbs B O. apply observed_run in O as (r' & s & R & -> & Es & ->). rewrite Es.
  destruct (run_events dbg fuel src calls b B) as (l & Hl & K). exists l. split; auto.
  rewrite R in K. destruct r'; auto.
Qed.

(** C07.  The outcome does not depend on the observer. *)
Theorem C07_observer_independent : forall PD O dbg fuel (c : CDT PD) (obs : O -> callback -> O) o,
  fst (triangulate_with_observer dbg PD fuel c obs o) = triangulate dbg PD fuel c.
Proof.
  intros. unfold triangulate, triangulate_with_observer. destruct (run dbg fuel (c_points c)) as [[] s]; reflexivity.
Qed.
(** ... and any observer's final state is a function of the recorded callbacks. *)
Theorem C07_observer_state : forall PD O dbg fuel (c : CDT PD) (obs : O -> callback -> O) o,
  snd (triangulate_with_observer dbg PD fuel c obs o) = fold_left obs (snd (observed dbg fuel c)) o.
Proof.
  intros. unfold observed, triangulate_with_observer. destruct (run dbg fuel (c_points c)) as [[] s]; simpl;
    rewrite fold_collect; reflexivity.
Qed.

(** C08, first half *)
Theorem C08_no_points_panics : forall PD dbg fuel (c : CDT PD) edges, c_points c = points_new [] edges ->
  triangulate dbg PD fuel c = Panic P_no_points /\ snd (observed dbg fuel c) = [].
Proof.
  intros. unfold observed, triangulate, triangulate_with_observer, run. rewrite H. split; reflexivity.
Qed.
End S.

Section Fin.
Context {A : Arith} {E : Exact A}.

(** C05 *)
Theorem C05_point_events : forall PD dbg fuel src calls (b : Builder PD) t cbs,
  builder_of PD src calls = Done b -> Forall finp (history_points PD src calls) ->
  observed dbg fuel (build PD b) = (Done t, cbs) ->
  exists lowest order,
    (* every input point but one, each once *)
    Permutation (lowest :: order) (seq 0 (length (history_points PD src calls))) /\
    (* in (y, then x) order, the omitted one being lowest *)
    StronglySorted (id_yle (history_points PD src calls)) (lowest :: order) /\
    point_events (map cb_event cbs) = flat_map (fun i => [EvEnterPoint i; EvExitPoint i]) order.
Proof.
  intros PD dbg fuel src calls b t cbs B F O.
  destruct (C06_observer_protocol PD dbg fuel src calls b _ cbs B O) as (l & [L1 L2] & (w & Hw & Ew)).
  pose proof (builder_of_points _ _ _ _ B) as (B1 & _ & W).
  pose proof (y_sorted_perm (pb_points (bd_points b)) (pb_edges (bd_points b))) as P. rewrite B1 in P.
  assert (F' := F). rewrite <- B1 in F'.
  pose proof (y_sorted_sorted (pb_points (bd_points b)) (pb_edges (bd_points b)) F') as S. rewrite B1 in S.
  change (c_points (build PD b)) with (points_new (pb_points (bd_points b)) (pb_edges (bd_points b))) in L1. rewrite B1 in L1.
  destruct (ps_y_sorted (points_new (history_points PD src calls) (pb_edges (bd_points b)))) as [|lowest order] eqn:Y.
  - exfalso. apply observed_run in O as (r' & s & R & _ & _ & Ht).
    apply Permutation_length in P. rewrite seq_length in P. simpl in P.
    unfold run, run_init in R. change (c_points (build PD b)) with (points_new (pb_points (bd_points b)) (pb_edges (bd_points b))) in R.
    unfold get_id_by_y in R. rewrite B1, Y in R. simpl in R. injection R as <- <-. discriminate.
  - exists lowest, order. split; auto. split; auto.
    rewrite Ew, point_events_app. apply sweep_word_events in Hw as [-> _]. simpl. rewrite app_nil_r.
    simpl in L1. rewrite <- L1. clear. induction l; simpl; congruence.
Qed.

(** every edge stored at a point comes from a strictly lower point *)
Lemma stored_lower PD src calls (b : Builder PD) e : eq_not_lt -> eq_sym -> builder_of PD src calls = Done b ->
  Forall finp (history_points PD src calls) -> In e (stored (pb_edges (bd_points b))) ->
  exists a c, nth_error (history_points PD src calls) (e_p e) = Some a /\
              nth_error (history_points PD src calls) (e_q e) = Some c /\ ylt (zp a) (zp c).
Proof.
  intros L Sy B F I. pose proof (builder_of_points _ _ _ _ B) as (B1 & _ & _).
  destruct (builder_of_edges PD src calls b L Sy B) as (W & AP & P).
  apply (Permutation_in _ P) in I. apply in_map_iff in I as (ij & <- & I). rewrite B1 in *.
  destruct (AP _ I) as (x & y & X & Y & N).
  assert (Fx : finp x) by (rewrite Forall_forall in F; apply F; eapply nth_error_In; eauto).
  assert (Fy : finp y) by (rewrite Forall_forall in F; apply F; eapply nth_error_In; eauto).
  unfold lower_first. rewrite X, Y. destruct (y_less y x) eqn:Q; simpl.
  - exists y, x. split; auto. split; auto. apply y_less_exact in Q; auto.
  - exists x, y. split; auto. split; auto.
    destruct (ylt_total (zp x) (zp y)) as [T|[T|T]]; auto.
    + exfalso. apply N. apply (coincide_point_eq). apply point_eq_exact; auto.
    + exfalso. assert (y_less y x = true) by (apply y_less_exact; auto). congruence.
Qed.

Lemma in_stored es e : In e (stored es) <-> exists pe, nth_error es (e_q e) = Some pe /\ In (e_p e) (edges_list pe).
Proof.
  unfold stored. rewrite in_flat_map. split.
  - intros ([q pe] & H1 & H2). apply enumerate_in in H1. unfold stored_at in H2. simpl in H2.
    apply in_map_iff in H2 as (p & <- & H2). simpl. eauto.
  - intros (pe & H1 & H2). exists (e_q e, pe). rewrite enumerate_in. split; auto.
    unfold stored_at. simpl. apply in_map_iff. exists (e_p e). destruct e; auto.
Qed.

(** C04 *)
Theorem C04_edge_events : forall PD dbg fuel src calls (b : Builder PD) t cbs, eq_not_lt -> eq_sym ->
  builder_of PD src calls = Done b -> Forall finp (history_points PD src calls) ->
  observed dbg fuel (build PD b) = (Done t, cbs) ->
  Permutation (edge_events (map cb_event cbs))
    (map (lower_first (history_points PD src calls)) (history_edges PD src calls)).
Proof.
  intros PD dbg fuel src calls b t cbs L Sy B F O.
  destruct (C06_observer_protocol PD dbg fuel src calls b _ cbs B O) as (l & [L1 L2] & (w & Hw & Ew)).
  pose proof (builder_of_points _ _ _ _ B) as (B1 & _ & W). unfold bd_wf, wf_pb in W.
  destruct (builder_of_edges PD src calls b L Sy B) as (_ & AP & P). rewrite B1 in P.
  rewrite <- P. rewrite Ew, edge_events_app. apply sweep_word_events in Hw as [_ ->]. simpl. rewrite app_nil_r.
  set (es := pb_edges (bd_points b)) in *.
  set (f := fun i => match nth_error es i with Some e => map (fun p => mkEdge p i) (edges_list e) | None => [] end).
  assert (G : flat_map (fun ip : nat * list nat => map (fun p => mkEdge p (fst ip)) (snd ip)) l = flat_map f (map fst l)).
  { clear L1. induction L2 as [|[i ps] l (e & H1 & H2) _ IH]; simpl; auto. rewrite IH. f_equal.
    simpl in *. unfold f. rewrite H1, H2. auto. }
  assert (G2 : stored es = flat_map f (seq 0 (length es))).
  { rewrite <- enumerate_fst. unfold stored. rewrite flat_map_concat_map, flat_map_concat_map, map_map.
    f_equal. apply map_ext_in. intros [i e] H. apply enumerate_in in H. simpl. unfold f, stored_at. rewrite H. auto. }
  rewrite G, G2.
  change (c_points (build PD b)) with (points_new (pb_points (bd_points b)) es) in L1.
  pose proof (y_sorted_perm (pb_points (bd_points b)) es) as Pm. rewrite <- W in Pm. fold es in Pm.
  assert (F' : Forall finp (pb_points (bd_points b))) by (rewrite B1; auto).
  pose proof (y_sorted_sorted (pb_points (bd_points b)) es F') as S.
  destruct (ps_y_sorted (points_new (pb_points (bd_points b)) es)) as [|lowest order] eqn:Y.
  - apply Permutation_nil in Pm. rewrite Pm. simpl in L1. rewrite L1. reflexivity.
  - simpl in L1. rewrite L1. rewrite <- (Permutation_flat_map f Pm). simpl.
    assert (Z : f lowest = []).
    { destruct (f lowest) as [|e r] eqn:Q; auto. exfalso.
      assert (I : In e (f lowest)) by (rewrite Q; left; auto).
      assert (Eq : e_q e = lowest /\ In e (stored es)).
      { unfold f in I. destruct (nth_error es lowest) eqn:N; [|destruct I]. apply in_map_iff in I as (p0 & <- & I).
        split; auto. apply in_stored. simpl. eauto. }
      destruct Eq as [Eq I']. apply (stored_lower PD src calls b e L Sy B F) in I' as (a & c & H1 & H2 & H3).
      assert (In (e_p e) (lowest :: order)).
      { apply (Permutation_in _ (Permutation_sym Pm)). apply in_seq. apply nth_error_lt in H1. rewrite W, B1. lia. }
      inversion S as [|x y S1 S2]; subst x y.
      rewrite <- B1 in H1, H2. rewrite Eq in H2.
      destruct H as [H|H].
      - rewrite <- H in H1. rewrite H1 in H2. injection H2 as ->. apply ylt_irrefl in H3; auto.
      - rewrite Forall_forall in S2. specialize (S2 _ H _ _ H2 H1). apply S2. auto. }
    rewrite Z. reflexivity.
Qed.
End Fin.
(** ... for the two float types *)
Theorem C04_edge_events_f64 : forall PD dbg fuel (src : @source F64 PD) calls (b : Builder PD) t cbs,
  builder_of PD src calls = Done b -> Forall finp (history_points PD src calls) ->
  observed dbg fuel (build PD b) = (Done t, cbs) ->
  Permutation (edge_events (map cb_event cbs))
    (map (lower_first (history_points PD src calls)) (history_edges PD src calls)).
Proof. intros. eapply C04_edge_events; eauto. exact F64_eq_not_lt. exact F64_eq_sym. Qed.
Theorem C04_edge_events_f32 : forall PD dbg fuel (src : @source F32 PD) calls (b : Builder PD) t cbs,
  builder_of PD src calls = Done b -> Forall finp (history_points PD src calls) ->
  observed dbg fuel (build PD b) = (Done t, cbs) ->
  Permutation (edge_events (map cb_event cbs))
    (map (lower_first (history_points PD src calls)) (history_edges PD src calls)).
Proof. intros. eapply C04_edge_events; eauto. exact F32_eq_not_lt. exact F32_eq_sym. Qed.


(** C08, second half: with at least one point, the first thing an observer is
    shown is the mesh consisting of the triangle (lowest point, head, tail),
    with these three points on the front. *)
Section C08.
Context {A : Arith}.
Lemma first_callback dbg fuel (ps : Points) l s0 r s : iter_point_by_y ps 1 = Done l -> s_trace s0 = [] ->
  run_body dbg fuel ps s0 = (r, s) ->
  exists cb rest, rev (s_trace s) = cb :: rest /\ cb_tris cb = s_tris s0 /\ cb_front cb = s_front s0 /\
    cb_result cb = s_result s0.
Proof.
  intros E T R.
  pose (I := fun st : Sweeper => exists cb front, s_trace st = front ++ [cb] /\ cb_tris cb = s_tris s0 /\
               cb_front cb = s_front s0 /\ cb_result cb = s_result s0).
  assert (X : forall a b k, s_trace b = k ++ s_trace a -> I a -> I b).
  { intros a b k H (cb & fr & H1 & H2). exists cb, (k ++ fr). rewrite H, H1, app_assoc. auto. }
  assert (G : wp (run_body dbg fuel ps) s0 (fun _ => I) (fun _ => I)).
  { unfold run_body, sweep_points.
    assert (IJ : forall s, I s -> I s) by auto.
    assert (E0 : forall e, I (mkSw (s_tris s0) (s_front s0) (s_result s0)
               (mkCb e (s_tris s0) (s_front s0) (s_result s0) :: s_trace s0))).
    { intro e. eexists _, []. simpl. rewrite T. split; [reflexivity|]. auto. }
    assert (HE := grow_emit I X). assert (HP := grow_point_event dbg ps I X).
    assert (HG := grow_edges_loop dbg ps I X). assert (HS := grow_sweep_loop dbg ps I X). assert (HZ := grow_finalize I X).
    apply wp_bind. apply wp_bind. apply wp_lift. rewrite E. simpl.
    destruct l as [|[[i p] es] l]; simpl.
    - apply wp_skip. apply wp_bind, wp_emit. apply (pres_bind I I IJ (finalize_polygon fuel) (fun _ => emit EvFinalized)); auto.
    - apply wp_bind, wp_emit.
      assert (H : pres I I (bind (point_event dbg ps fuel i p) (fun _ => bind (emit (EvExitPoint i)) (fun _ =>
         bind (edges_loop dbg ps fuel i p (edges_list es)) (fun _ =>
         bind (if dbg then bind get_tris (fun ts => bind (lift (verify_triangles dbg ps ts)) (fun ok =>
              bind (lift (rassert P_dbg_verify ok)) (fun _ => skip))) else skip) (fun _ =>
         sweep_loop dbg ps fuel l)))))).
      { clear - IJ HE HP HG HS. pres_go IJ; auto. }
      eapply wp_mono; [apply H, E0|auto|]. intros u s' Hs'.
      revert s' Hs'. change (pres I I (bind (emit EvSweepDone) (fun _ => bind (finalize_polygon fuel) (fun _ => emit EvFinalized)))).
      pres_go IJ; auto. }
  assert (K : I s). { unfold wp in G. rewrite R in G. destruct r; exact G. }
  destruct K as (cb & fr & H & H2). exists cb, (rev fr). rewrite H, rev_app_distr. auto.
Qed.
End C08.

Definition frame_entries {A : Arith} (pts : list Point) (lowest : nat) (plow : Point) : list Entry :=
  [mkEntry (head_point pts) (length pts) (Some 0); mkEntry plow lowest (Some 0);
   mkEntry (tail_point pts) (S (length pts)) None].

Theorem C08_initial_mesh : forall {A : Arith} PD dbg fuel src calls (b : Builder PD) r cbs,
  builder_of PD src calls = Done b -> history_points PD src calls <> [] ->
  observed dbg fuel (build PD b) = (r, cbs) ->
  exists lowest plow cb rest, cbs = cb :: rest /\
    nth_error (history_points PD src calls) lowest = Some plow /\
    cb_tris cb = [tri_new lowest (length (history_points PD src calls)) (S (length (history_points PD src calls)))] /\
    cb_result cb = [] /\
    Permutation (nodes (cb_front cb)) (frame_entries (history_points PD src calls) lowest plow) /\
    (forall E : Exact A, Forall finp (history_points PD src calls) ->
       (forall j p, nth_error (history_points PD src calls) j = Some p -> ~ ylt (zp p) (zp plow)) /\
       (finp (head_point (history_points PD src calls)) -> finp (tail_point (history_points PD src calls)) ->
        xlt (zp (head_point (history_points PD src calls))) (zp plow) ->
        xlt (zp plow) (zp (tail_point (history_points PD src calls))) ->
        nodes (cb_front cb) = frame_entries (history_points PD src calls) lowest plow)).
Proof.
  intros A PD dbg fuel src calls b r cbs B NE O.
  apply observed_run in O as (r' & s & R & -> & _ & _).
  apply builder_of_points in B as (B1 & _ & W). unfold bd_wf, wf_pb in W. rewrite <- B1 in *. clear B1.
  set (pts := pb_points (bd_points b)) in *. set (es := pb_edges (bd_points b)) in *.
  change (c_points (build PD b)) with (points_new pts es) in R.
  destruct (iter_point_ok pts es W) as (l & E & _).
  pose proof (y_sorted_perm pts es) as P.
  assert (LH : forall x, nth_error (pts ++ [head_point pts; tail_point pts]) (length pts) = Some x -> x = head_point pts).
  { intros x. rewrite nth_error_app2, Nat.sub_diag by lia. simpl. congruence. }
  unfold run, run_init in R. unfold get_id_by_y in R.
  destruct (ps_y_sorted (points_new pts es)) as [|lowest order] eqn:Y.
  { apply Permutation_length in P. rewrite seq_length in P. destruct pts; [congruence|discriminate]. }
  assert (Lw : lowest < length pts).
  { assert (In lowest (seq 0 (length pts))) by (apply (Permutation_in _ P); left; auto). apply in_seq in H. lia. }
  destruct (nth_error_ex pts lowest Lw) as [plow Hp].
  cbn [nth_error unwrap rbind ts_insert app length] in R.
  change (ps_head (points_new pts es)) with (length pts) in R. change (ps_tail (points_new pts es)) with (S (length pts)) in R.
  unfold ts_get, get_unchecked in R. cbn [nth_error unwrap rbind] in R.
  unfold front_new, get_point in R. cbn [t_points tri_new a0 a1 a2] in R.
  change (ps_points (points_new pts es)) with (pts ++ [head_point pts; tail_point pts]) in R.
  replace (nth_error (pts ++ [head_point pts; tail_point pts]) (length pts)) with (Some (head_point pts)) in R
    by (rewrite nth_error_app2, Nat.sub_diag by lia; reflexivity).
  replace (nth_error (pts ++ [head_point pts; tail_point pts]) (S (length pts))) with (Some (tail_point pts)) in R
    by (rewrite nth_error_app2 by lia; replace (S (length pts) - length pts) with 1 by lia; reflexivity).
  rewrite nth_error_app1 in R by auto. rewrite Hp in R. cbn [unwrap rbind] in R.
  assert (H0 := fun s0 T => first_callback dbg fuel _ l s0 r' s E T). specialize (H0 _ (eq_refl : s_trace (mkSw _ _ _ []) = []) R).
  destruct H0 as (cb & rest & H1 & H2 & H3 & H4).
  exists lowest, plow, cb, rest. split; auto. split; auto. split; [exact H2|]. split; [exact H4|].
  rewrite H3. cbn [s_front nodes].
  fold (frame_entries pts lowest plow). split.
  { unfold frame_entries. simpl.
    destruct (key_cmp (head_point pts) plow); simpl;
    repeat (match goal with |- context [match ?c with Eq => _ | Lt => _ | Gt => _ end] => destruct c end; simpl);
    eauto using Permutation, Permutation_refl.
    all: try (apply Permutation_sym; eapply perm_trans; [apply perm_swap|]; apply Permutation_refl).
    all: repeat (first [reflexivity | apply perm_skip | (eapply perm_trans; [apply perm_swap|])]). }
  intros EX F. split.
  - intros j p Hj. pose proof (y_sorted_sorted pts es F) as S. rewrite Y in S.
    inversion S as [|x y _ S2]; subst x y.
    destruct (Nat.eq_dec j lowest) as [->|N]; [assert (p = plow) as -> by congruence; apply ylt_irrefl|].
    rewrite Forall_forall in S2. apply (S2 j); auto.
    assert (In j (lowest :: order)) as [?|?]; [|congruence|auto].
    apply (Permutation_in _ (Permutation_sym P)), in_seq. apply nth_error_lt in Hj. lia.
  - intros Fh Ft Lh Lt'. assert (Fp : finp plow) by (rewrite Forall_forall in F; apply F; eapply nth_error_In; eauto).
    unfold frame_entries. simpl.
    assert (C1 : key_cmp (head_point pts) plow = Lt).
    { rewrite key_cmp_exact by auto. destruct (zcmp_spec (zp (head_point pts)) (zp plow)) as [Q|Q|Q]; auto.
      - rewrite Q in Lh. apply xlt_irrefl in Lh. tauto.
      - exfalso. eapply xlt_irrefl, xlt_trans; eauto. }
    assert (C2 : key_cmp plow (tail_point pts) = Lt).
    { rewrite key_cmp_exact by auto. destruct (zcmp_spec (zp plow) (zp (tail_point pts))) as [Q|Q|Q]; auto.
      - rewrite Q in Lt'. apply xlt_irrefl in Lt'. tauto.
      - exfalso. eapply xlt_irrefl, xlt_trans; eauto. }
    assert (C3 : key_cmp (head_point pts) (tail_point pts) = Lt).
    { rewrite key_cmp_exact by auto. destruct (zcmp_spec (zp (head_point pts)) (zp (tail_point pts))) as [Q|Q|Q]; auto.
      - rewrite Q in Lh. exfalso. eapply xlt_irrefl, xlt_trans; eauto.
      - exfalso. eapply xlt_irrefl, xlt_trans; [exact Lh|]. eapply xlt_trans; eauto. }
    rewrite C1. simpl. rewrite C3. simpl. rewrite C2. reflexivity.
Qed.

(** Non-vacuity: the history of PropsBuilder.v (a square with a hole and three
    Steiner points, finite coordinates) completes, with 7 edge events. *)
Definition finb64 (x : SpecFloat.spec_float) : bool :=
  match x with
  | SpecFloat.S754_zero _ | SpecFloat.S754_finite _ _ _ => SpecFloat.valid_binary 53 1024 x
  | _ => false
  end.
Lemma finp64_dec (p : @Point F64) : finb64 (px p) && finb64 (py p) = true -> finp p.
Proof.
  assert (G : forall x, finb64 x = true -> @fin F64 _ x) by (intros [] H; try discriminate; exact H).
  intro H. apply andb_true_iff in H as [H1 H2]. split; apply G; auto.
Qed.
Example trace_example_finite : Forall finp (history_points nat ex_src ex_calls).
Proof. repeat constructor; apply finp64_dec; vm_compute; reflexivity. Qed.
Example trace_example_runs : (match builder_of nat ex_src ex_calls with
  | Done b => let '(r, cbs) := observed true 200 (build nat b) in
      match r with Done _ => Some (length (edge_events (map cb_event cbs)), length (point_events (map cb_event cbs))) | _ => None end
  | _ => None end) = Some (7, 18).
Proof. vm_compute. reflexivity. Qed.

Print Assumptions C04_edge_events_f64.
Print Assumptions C04_edge_events_f32.
Print Assumptions C05_point_events.
Print Assumptions C06_observer_protocol.
Print Assumptions C07_observer_independent.
Print Assumptions C07_observer_state.
Print Assumptions C08_no_points_panics.
Print Assumptions C08_initial_mesh.
Print Assumptions C04_edge_events.
