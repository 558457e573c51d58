(** * PropsFront: C14, C15, C16 - the advancing front *)
From Coq Require Import List Arith Bool Lia ZArith Permutation Sorted.
From Verif Require Import Base Num Shape ShapeSpec Utils Points Triangles Front Sweeper Cdt F64 Lists BuilderSpec History SortSpec Monad Traverse
  Exact F64Exact PropsBuilder PropsTrace FrontSpec Setup Boundary Chain FrontInv Init.
Import ListNotations.

Section S.
Context {A : Arith} {E : Exact A}.

Lemma run_claims PD dbg fuel src calls (b : Builder PD) r cbs :
  builder_of PD src calls = Done b -> proper (c_points (build PD b)) -> observed dbg fuel (build PD b) = (r, cbs) ->
  claims (c_points (build PD b)) (rev cbs).
Proof.
  intros B PP O. apply observed_run in O as (r' & s & R & -> & _ & _). rewrite rev_involutive.
  apply builder_of_points in B as (B1 & _ & W). unfold bd_wf, wf_pb in W.
  change (c_points (build PD b)) with (points_new (pb_points (bd_points b)) (pb_edges (bd_points b))) in *.
  set (pts := pb_points (bd_points b)) in *. set (es := pb_edges (bd_points b)) in *.
  destruct pts as [|p0 pts'] eqn:Hpts.
  { unfold run, run_init in R. simpl in R. injection R as _ <-. exact I. }
  rewrite <- Hpts in *. clear p0 pts' Hpts.
  assert (C : pts = [] \/ pts <> []) by (destruct pts; [left|right]; congruence).
  destruct C as [C|NE].
  { rewrite C in R. unfold run, run_init in R. simpl in R. injection R as _ <-. exact I. }
  destruct (start_ok pts es PP W NE) as (lowest & order & plow & l & Y & P & SS & Hp & RI & EI & Ids & Items).
  unfold run in R. rewrite RI in R.
  assert (Lw : lowest < length pts) by (apply nth_error_lt in Hp; auto).
  set (ps := points_new pts es) in *.
  assert (CH : chain ps (frame_entries pts lowest plow)).
  { pose proof (pr_fin ps PP) as F. unfold ps in F. simpl in F. rewrite Forall_forall in F.
    assert (Zh : zc ps (length pts) = zp (head_point pts)) by (unfold zc, ps; rewrite nth_head; auto).
    assert (Zt : zc ps (S (length pts)) = zp (tail_point pts)) by (unfold zc, ps; rewrite nth_tail; auto).
    assert (Zl : zc ps lowest = zp plow) by (unfold zc, ps; rewrite nth_pts, Hp by auto; auto).
    pose proof (pr_frame ps PP lowest Lw) as [[F1 F2] _].
    change (ps_head ps) with (length pts) in *. change (ps_tail ps) with (S (length pts)) in *.
    rewrite Zh, Zl in F1. rewrite Zt, Zl in F2.
    constructor.
    - split.
      + repeat constructor; try (apply F; rewrite in_app_iff; simpl; auto; fail).
        all: apply F; rewrite in_app_iff; left; eapply nth_error_In; eauto.
      + intros i j a c Lij Ha Hc. destruct i as [|[|[|i]]]; destruct j as [|[|[|j]]]; try lia; simpl in Ha, Hc;
          try (destruct j; discriminate); try (destruct i; discriminate); injection Ha as <-; injection Hc as <-; simpl; left; simpl in *; lia.
    - intros e He. simpl in He. destruct He as [<-|[<-|[<-|[]]]]; simpl en_pid; simpl en_key.
      + apply nth_head. + unfold ps. rewrite nth_pts; auto. + apply nth_tail.
    - eexists; split; [reflexivity|]. reflexivity.
    - eexists; split; [reflexivity|]. reflexivity.
    - intros i e Li He. destruct i as [|[|i]]; simpl in He, Li; [injection He as <-; discriminate|injection He as <-; discriminate|lia]. }
  assert (IK : Ik ps [lowest] 0 (now 0) (start_state pts lowest plow)).
  { exists 1, 3. split; [reflexivity|]. split; [reflexivity|]. split; [|split; [reflexivity|exact I]].
    split; [split; [exact CH|exact I]|]. split; [|reflexivity].
    intros i e He. apply nth_error_In in He. simpl in He. destruct He as [<-|[<-|[<-|[]]]]; simpl; auto. }
  assert (TD : todo ps [lowest] l).
  { assert (NDo : NoDup (lowest :: order)) by (eapply Permutation_NoDup; [apply Permutation_sym; eauto|apply seq_NoDup]).
    inversion NDo as [|? ? NI ND]; subst. split; [exact ND|].
    intros y Hy. destruct (Items y Hy) as [H1 H2].
    assert (Ly : fst (fst y) < length pts) by (apply nth_error_lt in H1; auto).
    split; [unfold ps; rewrite nth_pts; auto|]. split; [|exact Ly]. intros [Q|[]]. apply NI. rewrite Q. apply (in_map (fun y => fst (fst y)) _ _ Hy). }
  pose proof (run_body_claims dbg ps PP fuel l [lowest] 0 _ EI IK TD) as K.
  unfold wp in K. rewrite R in K. destruct r'; exact K.
Qed.

Lemma claims_in ps : forall l cb, claims ps l -> In cb l -> front_ok ps (cb_front cb).
Proof.
  induction l as [|c l IH]; intros cb H IN; [destruct IN|]. destruct H as (H1 & _ & H3). destruct IN as [<-|IN]; auto.
Qed.
Lemma claims_app ps : forall l1 cb l2, claims ps (l1 ++ cb :: l2) -> outer (cb_event cb) = true ->
  length (cb_tris cb) + length (nodes (cb_front cb)) = 2 * (1 + exits (cb :: l2)) + 2.
Proof. induction l1 as [|c l1 IH]; intros cb l2 H O; destruct H as (H1 & H2 & H3); [apply H2; auto|eapply IH; eauto]. Qed.

(** C14.  At every callback of every run on a proper input - whatever its outcome -
    the front's nodes are strictly increasing in (x, then y), have the coordinates of
    their points, start at the artificial head and end at the artificial tail, and all
    but the last one have a triangle. *)
Theorem C14_front_is_chain : forall PD dbg fuel src calls (b : Builder PD) r cbs cb,
  builder_of PD src calls = Done b -> proper (c_points (build PD b)) ->
  observed dbg fuel (build PD b) = (r, cbs) -> In cb cbs ->
  let ns := nodes (cb_front cb) in
  (forall i j e e', i < j -> nth_error ns i = Some e -> nth_error ns j = Some e' -> xlt (zp (en_key e)) (zp (en_key e'))) /\
  (forall e, In e ns -> nth_error (ps_points (c_points (build PD b))) (en_pid e) = Some (en_key e)) /\
  (exists e, nth_error ns 0 = Some e /\ en_pid e = length (history_points PD src calls)) /\
  (exists e, nth_error ns (length ns - 1) = Some e /\ en_pid e = S (length (history_points PD src calls))) /\
  (forall i e, S i < length ns -> nth_error ns i = Some e -> en_tri e <> None).
Proof.
  intros PD dbg fuel src calls b r cbs cb B PP O IN ns.
  pose proof (run_claims PD dbg fuel src calls b r cbs B PP O) as K.
  assert (FO : front_ok (c_points (build PD b)) (cb_front cb)) by (eapply claims_in; eauto; apply in_rev; rewrite rev_involutive; auto).
  destruct FO as [C _]. fold ns in C. apply builder_of_points in B as (B1 & _ & _). rewrite <- B1.
  split; [apply (ch_inc _ _ C)|]. split; [apply (ch_key _ _ C)|]. split; [apply (ch_first _ _ C)|]. split; [apply (ch_last _ _ C)|]. apply (ch_tri _ _ C).
Qed.

(** C16.  At every callback outside a legalization, triangles + front nodes =
    2 * (points processed) + 2; the lowest point is processed from the start, every
    other one by its exit_point_event. *)
Theorem C16_triangle_count : forall PD dbg fuel src calls (b : Builder PD) r before cb after,
  builder_of PD src calls = Done b -> proper (c_points (build PD b)) ->
  observed dbg fuel (build PD b) = (r, before ++ cb :: after) -> outer (cb_event cb) = true ->
  length (cb_tris cb) + length (nodes (cb_front cb)) = 2 * (1 + exits (before ++ [cb])) + 2.
Proof.
  intros PD dbg fuel src calls b r before cb after B PP O OU.
  pose proof (run_claims PD dbg fuel src calls b r _ B PP O) as K.
  rewrite rev_app_distr in K. simpl in K. rewrite <- app_assoc in K. simpl in K.
  rewrite (claims_app _ _ _ _ K OU). f_equal. f_equal. f_equal.
  assert (G : forall l, exits (rev l) = exits l).
  { unfold exits. induction l as [|c l IH]; simpl; auto. rewrite filter_app, app_length, IH. simpl. destruct (is_exit (cb_event c)); simpl; lia. }
  rewrite <- (G (before ++ [cb])), rev_app_distr. reflexivity.
Qed.

(** the node of coordinates p, if the front has one *)
Definition node_with_coordinates (af : AdvancingFront) (p : Point) (o : option NodeRef) : Prop :=
  match o with
  | Some n => exists e, nth_error (nodes af) (nr_index n) = Some e /\ zp (en_key e) = zp p /\
                        n = mkNodeRef (en_pid e) (en_key e) (en_tri e) (nr_index n)
  | None => forall i e, nth_error (nodes af) i = Some e -> zp (en_key e) <> zp p
  end.

Lemma node_of_search af p r : search_ok (nodes af) p r ->
  exists o, match r with FErr _ => Done None | FOk i => let! e := get_unchecked U_front (nodes af) i in Done (Some (to_node e i)) end = Done o /\
    node_with_coordinates af p o.
Proof.
  intro S. destruct r as [i|i].
  - destruct S as (e & H1 & H2). unfold get_unchecked. rewrite H1. simpl. eexists; split; [reflexivity|]. exists e. simpl. auto.
  - destruct S as (_ & H1 & H2). eexists; split; [reflexivity|]. intros j e He Q. destruct (Nat.lt_ge_cases j i) as [L|L].
    + specialize (H1 j e L He). rewrite Q in H1. apply xlt_irrefl in H1. auto.
    + specialize (H2 j e L He). rewrite Q in H2. apply xlt_irrefl in H2. auto.
Qed.

(** C15.  On the front shown at any callback, for every coordinate between the
    artificial points: the lookup through the cache, with or without refreshing it,
    and - for a node id carrying any index hint whatsoever - the lookup by id, find
    the node of that coordinate exactly when there is one; locating a coordinate to
    the right of the head gives the rightmost node not to the right of it. *)
Theorem C15_lookups_exact : forall PD dbg fuel src calls (b : Builder PD) r cbs cb,
  builder_of PD src calls = Done b -> proper (c_points (build PD b)) ->
  observed dbg fuel (build PD b) = (r, cbs) -> In cb cbs ->
  let af := cb_front cb in
  let head := zp (head_point (history_points PD src calls)) in
  let tail := zp (tail_point (history_points PD src calls)) in
  (forall p, finp p -> ~ xlt (zp p) head -> ~ xlt tail (zp p) ->
     (exists o, get_node af p = Done o /\ node_with_coordinates af p o) /\
     (exists o af', get_node_with_cache af p = Done (o, af') /\ node_with_coordinates af p o /\ nodes af' = nodes af) /\
     (exists n, locate_node dbg af p = Done n /\ nth_error (nodes af) (nr_index n) = Some (mkEntry (nr_point n) (nr_pid n) (nr_tri n)) /\
        ~ xlt (zp p) (zp (nr_point n)) /\
        (forall j e, nr_index n < j -> nth_error (nodes af) j = Some e -> xlt (zp p) (zp (en_key e))))) /\
  (forall id, nth_error (ps_points (c_points (build PD b))) (ni_pid id) = Some (ni_point id) ->
     exists o, get_node_with_id af id = Done o /\ node_with_coordinates af (ni_point id) o).
Proof.
  intros PD dbg fuel src calls b r cbs cb B PP O IN af head tail.
  pose proof (run_claims PD dbg fuel src calls b r cbs B PP O) as K.
  assert (FO : front_ok (c_points (build PD b)) af) by (eapply claims_in; eauto; apply in_rev; rewrite rev_involutive; auto).
  destruct FO as [C CA]. apply builder_of_points in B as (B1 & _ & _). unfold head, tail in *. clear head tail. rewrite <- B1 in *. set (head := zp (head_point (pb_points (bd_points b)))). set (tail := zp (tail_point (pb_points (bd_points b)))).
  assert (INS : forall p, ~ xlt (zp p) head -> ~ xlt tail (zp p) -> inside_front af p).
  { intros p H1 H2. destruct (ch_first _ _ C) as (e & Q1 & Q2). destruct (ch_last _ _ C) as (e' & Q3 & Q4).
    assert (K1 := ch_key _ _ C e (nth_error_In _ _ Q1)). assert (K2 := ch_key _ _ C e' (nth_error_In _ _ Q3)).
    rewrite Q2 in K1. rewrite Q4 in K2. change (ps_head (c_points (build PD b))) with (length (pb_points (bd_points b))) in K1.
    change (ps_tail (c_points (build PD b))) with (S (length (pb_points (bd_points b)))) in K2.
    change (c_points (build PD b)) with (points_new (pb_points (bd_points b)) (pb_edges (bd_points b))) in K1, K2.
    rewrite nth_head in K1. rewrite nth_tail in K2. injection K1 as K1. injection K2 as K2.
    split; [exists e|exists e']; split; auto; [rewrite <- K1|rewrite <- K2]; auto. }
  split.
  - intros p Fp Hh Ht. pose proof (INS p Hh Ht) as IP.
    destruct (cached_search_ok af p (ch_inc _ _ C) CA Fp IP) as (rs & Rs & SO).
    destruct (node_of_search af p rs SO) as (o & Eo & No). split; [|split].
    + exists o. split; auto. unfold get_node. rewrite Rs. cbn [rbind]. exact Eo.
    + unfold get_node_with_cache. rewrite Rs. cbn [rbind]. destruct rs as [i|i].
      * cbn [nodes]. destruct (get_unchecked U_front (nodes af) i) as [e| | |]; try discriminate. cbn [rbind] in *. injection Eo as <-.
        eexists _, _. split; [reflexivity|]. split; auto.
      * injection Eo as <-. eexists _, _. split; [reflexivity|]. split; auto.
    + pose proof (search_ok_plain (c_points (build PD b)) af p C Fp) as S. unfold locate_node.
      destruct (search_by_key af p) as [i|i].
      * destruct S as (e & H1 & H2). cbn [rbind]. unfold get_unchecked. rewrite H1. cbn [rbind]. eexists. split; [reflexivity|].
        cbn [to_node nr_index nr_point nr_pid nr_tri]. split; [destruct e; exact H1|]. split; [rewrite H2; apply xlt_irrefl|].
        intros j e' Lj He'. rewrite <- H2. eapply (proj2 (ch_inc _ _ C)); eauto.
      * destruct S as (H0 & H1 & H2). destruct i as [|i].
        { exfalso. destruct IP as [(e & Q1 & Q2) _]. apply Q2. apply (H2 0 e); auto. }
        cbn [rbind]. destruct (nth_error_ex (nodes af) i) as [e He]; [lia|]. unfold get_unchecked. rewrite He. cbn [rbind].
        eexists. split; [reflexivity|]. cbn [to_node nr_index nr_point nr_pid nr_tri]. split; [destruct e; exact He|]. split.
        { intro Q. eapply xlt_irrefl, xlt_trans; [exact Q|]. apply (H1 i e); auto. }
        intros j e' Lj He'. apply (H2 j e'); auto.
  - intros id Hid. pose proof (resolve_ok (c_points (build PD b)) PP af id C Hid) as S. unfold get_node_with_id.
    apply node_of_search. exact S.
Qed.
End S.

(** Non-vacuity: the square with a hole and three Steiner points of PropsBuilder.v is
    a proper input (trace_example_runs: its run completes). *)
Example front_example : exists b, builder_of nat ex_src ex_calls = Done b /\ proper (c_points (build nat b)).
Proof.
  assert (R : match builder_of nat ex_src ex_calls with Done b => properb (c_points (build nat b)) | _ => false end = true) by (vm_compute; reflexivity).
  destruct (builder_of nat ex_src ex_calls) as [b| | |]; try discriminate. exists b. split; auto. apply properb_ok. exact R.
Qed.
Print Assumptions C14_front_is_chain.
Print Assumptions C15_lookups_exact.
Print Assumptions C16_triangle_count.
