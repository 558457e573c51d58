(** * TraceSpec: the language of observer callbacks *)
From Coq Require Import List Arith Bool Lia.
From Verif Require Import Base Num Shape Utils Points Triangles Front Sweeper Cdt Monad Traverse Lists.
Import ListNotations.

(** ** The language (specification) *)
(** callbacks made while a triangle is being legalized *)
Definition is_body (e : event) : Prop :=
  match e with EvLegalizeStep _ | EvRotated _ _ => True | _ => False end.
(** complete legalizations, one after the other *)
Inductive blocks : list event -> Prop :=
| blocks_nil : blocks []
| blocks_cons t body l : Forall is_body body -> blocks l ->
    blocks (EvWillLegalize t :: body ++ EvLegalized t :: l).
(** the edge events of point q towards the lower points ps *)
Inductive edges_word (q : nat) : list nat -> list event -> Prop :=
| edges_nil : edges_word q [] []
| edges_cons p ps b w : blocks b -> edges_word q ps w ->
    edges_word q (p :: ps) (b ++ EvEdge (mkEdge p q) :: w).
(** the sweep over points, each with its lower neighbours *)
Inductive sweep_word : list (nat * list nat) -> list event -> Prop :=
| sweep_nil : sweep_word [] []
| sweep_cons i ps l b we w : blocks b -> edges_word i ps we -> sweep_word l w ->
    sweep_word ((i, ps) :: l) (EvEnterPoint i :: b ++ EvExitPoint i :: we ++ w).
(** a whole run *)
Definition run_word (l : list (nat * list nat)) (w : list event) : Prop :=
  exists w', sweep_word l w' /\ w = w' ++ [EvSweepDone; EvFinalized].

Lemma blocks_app a b : blocks a -> blocks b -> blocks (a ++ b).
Proof.
  induction 1 as [|t body l Hb Hl IH]; simpl; auto. intro H.
  rewrite <- app_assoc. simpl. constructor; auto.
Qed.
Lemma edges_word_ex q ps : exists w, edges_word q ps w.
Proof. induction ps as [|p ps [w IH]]; [exists []; constructor|]. exists ([] ++ EvEdge (mkEdge p q) :: w). constructor; auto. constructor. Qed.
Lemma sweep_word_ex l : exists w, sweep_word l w.
Proof.
  induction l as [|[i ps] l [w IH]]; [exists []; constructor|]. destruct (edges_word_ex i ps) as [we H].
  exists (EvEnterPoint i :: [] ++ EvExitPoint i :: we ++ w). constructor; auto. constructor.
Qed.

(** projections of the words *)
Definition point_events (w : list event) : list event :=
  filter (fun e => match e with EvEnterPoint _ | EvExitPoint _ => true | _ => false end) w.
Fixpoint edge_events (w : list event) : list Edge :=
  match w with [] => [] | EvEdge e :: w' => e :: edge_events w' | _ :: w' => edge_events w' end.
Lemma edge_events_app a b : edge_events (a ++ b) = edge_events a ++ edge_events b.
Proof. induction a as [|e a IH]; simpl; auto. destruct e; simpl; rewrite ?IH; auto. Qed.
Lemma point_events_app a b : point_events (a ++ b) = point_events a ++ point_events b.
Proof. apply filter_app. Qed.
Lemma body_events body : Forall is_body body -> point_events body = [] /\ edge_events body = [].
Proof. induction 1 as [|e l H _ [IH1 IH2]]; simpl; auto. destruct e; simpl in *; tauto. Qed.
Lemma blocks_events b : blocks b -> point_events b = [] /\ edge_events b = [].
Proof.
  induction 1 as [|t body l Hb Hl [IH1 IH2]]; simpl; auto.
  change (EvLegalized t :: l) with ([EvLegalized t] ++ l).
  rewrite !point_events_app, !edge_events_app. apply body_events in Hb as [-> ->]. simpl. auto.
Qed.
Lemma edges_word_events q ps w : edges_word q ps w ->
  point_events w = [] /\ edge_events w = map (fun p => mkEdge p q) ps.
Proof.
  induction 1 as [|p ps b w Hb Hw [IH1 IH2]]; simpl; auto.
  rewrite point_events_app, edge_events_app. apply blocks_events in Hb as [-> ->]. simpl. rewrite IH2; auto.
Qed.
Lemma sweep_word_events l w : sweep_word l w ->
  point_events w = flat_map (fun ip => [EvEnterPoint (fst ip); EvExitPoint (fst ip)]) l /\
  edge_events w = flat_map (fun ip => map (fun p => mkEdge p (fst ip)) (snd ip)) l.
Proof.
  induction 1 as [|i ps l b we w Hb He Hw [IH1 IH2]]; simpl; auto.
  change (EvExitPoint i :: we ++ w) with ([EvExitPoint i] ++ we ++ w).
  rewrite !point_events_app, !edge_events_app. apply blocks_events in Hb as [-> ->].
  apply edges_word_events in He as [-> ->]. simpl. rewrite IH1, IH2. auto.
Qed.

(** ** The code speaks it *)
Section S.
Context {A : Arith}.
Variable dbg : bool.
Variable points : Points.

Definition evs (s : Sweeper) : list event := map cb_event (rev (s_trace s)).

(** after the callbacks [o], only complete legalizations / possibly inside one *)
Definition Out (o : list event) (s : Sweeper) : Prop := exists b, blocks b /\ evs s = o ++ b.
Definition In_ (o : list event) (t : tid) (s : Sweeper) : Prop :=
  exists b body, blocks b /\ Forall is_body body /\ evs s = o ++ b ++ EvWillLegalize t :: body.
Definition Any (o : list event) (s : Sweeper) : Prop := Out o s \/ exists t, In_ o t s.

Lemma evs_emit e s : evs (mkSw (s_tris s) (s_front s) (s_result s)
    (mkCb e (s_tris s) (s_front s) (s_result s) :: s_trace s)) = evs s ++ [e].
Proof. unfold evs; simpl. rewrite map_app. reflexivity. Qed.

Lemma pres_emit_body o t e : is_body e -> pres (In_ o t) (In_ o t) (emit e).
Proof.
  intros B s (b & body & H1 & H2 & H3). apply wp_emit. exists b, (body ++ [e]). rewrite evs_emit, H3.
  split; auto. split; [apply Forall_app; auto|]. rewrite <- !app_assoc. reflexivity.
Qed.
Lemma pres_put_tris (I J : Sweeper -> Prop) ts : (forall s s', s_trace s = s_trace s' -> I s -> I s') -> pres I J (put_tris ts).
Proof. intros H s Hs. apply wp_put_tris. eapply H; [|exact Hs]. reflexivity. Qed.
Lemma pres_put_front (I J : Sweeper -> Prop) af : (forall s s', s_trace s = s_trace s' -> I s -> I s') -> pres I J (put_front af).
Proof. intros H s Hs. apply wp_put_front. eapply H; [|exact Hs]. reflexivity. Qed.
Lemma evs_ext s s' : s_trace s = s_trace s' -> evs s = evs s'.
Proof. unfold evs. intros ->; auto. Qed.
Lemma In_ext o t s s' : s_trace s = s_trace s' -> In_ o t s -> In_ o t s'.
Proof. intros H (b & body & H1 & H2 & H3). exists b, body. rewrite <- (evs_ext _ _ H). auto. Qed.
Lemma Out_ext o s s' : s_trace s = s_trace s' -> Out o s -> Out o s'.
Proof. intros H (b & H1 & H2). exists b. rewrite <- (evs_ext _ _ H). auto. Qed.

Lemma inner_steps (I : Sweeper -> Prop) : (forall s s', s_trace s = s_trace s' -> I s -> I s') ->
  (forall t, pres I I (map_triangle_to_nodes dbg points t)) /\
  (forall t p ot op, pres I I (rotate_triangle_pair dbg t p ot op)) /\
  (forall t ot, pres I I (set_delaunay_pair t ot)).
Proof.
  intro X. assert (IJ : forall s, I s -> I s) by auto.
  assert (HT := fun ts => pres_put_tris I I ts X). assert (HF := fun af => pres_put_front I I af X).
  split; [|split].
  - intro t. unfold map_triangle_to_nodes.
    assert (G : forall l t' tid, pres I I (map_nodes_loop points l t' tid)).
    { induction l; intros; simpl; pres_go IJ; auto. }
    pres_go IJ; auto.
  - intros. unfold rotate_triangle_pair. pres_go IJ; auto.
  - intros. unfold set_delaunay_pair. pres_go IJ; auto.
Qed.

Lemma legalize_loop_in o t0 : forall fuel q r, pres (In_ o t0) (In_ o t0) (legalize_loop dbg points fuel q r).
Proof.
  assert (IJ : forall s, In_ o t0 s -> In_ o t0 s) by auto.
  destruct (inner_steps (In_ o t0) (In_ext o t0)) as (M1 & M2 & M3).
  assert (E : forall l t, pres (In_ o t0) (In_ o t0) (legalize_edges dbg points l t)).
  { induction l; intros; simpl; pres_go IJ; auto. apply pres_emit_body; exact Logic.I. }
  induction fuel; intros; simpl; pres_go IJ; auto; apply pres_emit_body; exact Logic.I.
Qed.

Lemma In_Any o t s : In_ o t s -> Any o s. Proof. right; eauto. Qed.
Lemma Out_Any o s : Out o s -> Any o s. Proof. left; auto. Qed.

Lemma legalize_out o fuel t : pres (Out o) (Any o) (legalize dbg points fuel t).
Proof.
  intros s (b & H1 & H2). unfold legalize.
  destruct (inner_steps (In_ o t) (In_ext o t)) as (M1 & M2 & M3).
  assert (IJ : forall s, In_ o t s -> In_ o t s) by auto.
  assert (G : forall l, pres (In_ o t) (In_ o t) (map_triangles dbg points l)).
  { induction l; simpl; pres_go IJ; auto. }
  apply wp_bind, wp_emit. apply wp_bind.
  eapply wp_mono; [apply (legalize_loop_in o t)| |].
  - exists b, []. rewrite evs_emit, H2. rewrite <- app_assoc. auto.
  - intros f s' H. apply (In_Any o t); auto.
  - intros r s' H. apply wp_bind. eapply wp_mono; [apply G, H| |].
    + intros f s'' K. apply (In_Any o t); auto.
    + intros u s'' (b' & body & K1 & K2 & K3). apply wp_emit.
      exists (b' ++ EvWillLegalize t :: body ++ EvLegalized t :: []). rewrite evs_emit, K3. split.
      * apply blocks_app; auto. constructor; auto. constructor.
      * rewrite <- !app_assoc. simpl. rewrite <- ?app_assoc. reflexivity.
Qed.

Section O.
Variable o : list event.
Let IJ : forall s, Out o s -> Any o s := Out_Any o.
Let HT ts : pres (Out o) (Any o) (put_tris ts) := pres_put_tris _ _ ts (Out_ext o).
Let HF af : pres (Out o) (Any o) (put_front af) := pres_put_front _ _ af (Out_ext o).

Lemma weaken {T} (m : M T) : pres (Out o) (Out o) m -> pres (Out o) (Any o) m.
Proof. intros H s Hs. eapply wp_mono; [apply H, Hs| |]; auto. Qed.

Lemma fill_one_out fuel id : pres (Out o) (Any o) (fill_one dbg points fuel id).
Proof. unfold fill_one. pres_go IJ; auto. apply legalize_out. Qed.
Lemma insert_point_out fuel id p : pres (Out o) (Any o) (insert_point dbg points fuel id p).
Proof. unfold insert_point. pres_go IJ; auto. apply legalize_out. Qed.
Lemma point_event_out fuel id p : pres (Out o) (Any o) (point_event dbg points fuel id p).
Proof.
  unfold point_event. apply (pres_bind _ _ IJ); [apply insert_point_out|]. intros [node_id node_point].
  apply (point_event_rest_pres dbg points _ _ IJ fill_one_out).
Qed.
Lemma edge_event_out fuel e q : pres (Out o) (Any o) (edge_event dbg points fuel e q).
Proof.
  destruct (inner_steps (Out o) (Out_ext o)) as (M1 & M2 & M3).
  apply (edge_event_pres dbg points _ _ IJ fill_one_out).
  - intros. unfold try_mark_edge_for_triangle. pres_go IJ; auto.
  - intros. unfold mark_collinear. pres_go IJ; auto.
  - intros. unfold mark_flipped. pres_go IJ; auto.
  - intros s t p ot op H _. revert s H. unfold flip_pair.
    change (pres (Out o) (Any o) (bind (rotate_triangle_pair dbg t p ot op) (fun need_remap : bool =>
      if need_remap then bind (map_triangle_to_nodes dbg points t) (fun _ => map_triangle_to_nodes dbg points ot) else skip))).
    apply (pres_bind _ _ IJ); [apply weaken, M2|]. intros []; pres_go IJ; apply weaken, M1.
  - apply legalize_out.
  - intros. unfold node_with_cache. pres_go IJ; auto.
Qed.
End O.

(** a failure leaves a prefix of a word of the language L, continuing after o *)
Definition stops (o : list event) (L : list event -> Prop) (s : Sweeper) : Prop :=
  exists w rest, L w /\ o ++ w = evs s ++ rest.

Lemma Any_complete o s : Any o s -> exists b c, blocks b /\ o ++ b = evs s ++ c.
Proof.
  intros [(b & H1 & H2)|(t & b & body & H1 & H2 & H3)].
  - exists b, []. rewrite H2, app_nil_r. auto.
  - exists (b ++ EvWillLegalize t :: body ++ EvLegalized t :: []), [EvLegalized t]. split.
    + apply blocks_app; auto. constructor; auto. constructor.
    + rewrite H3, <- !app_assoc. simpl. reflexivity.
Qed.

Lemma edges_loop_wp fuel q pq : forall ps s o, evs s = o ->
  wp (edges_loop dbg points fuel q pq ps) s (fun _ => stops o (edges_word q ps))
     (fun _ s' => exists w, edges_word q ps w /\ evs s' = o ++ w).
Proof.
  induction ps as [|p ps IH]; intros s o H; simpl.
  - apply wp_skip. exists []. rewrite app_nil_r. split; [constructor|auto].
  - apply wp_bind. eapply wp_mono; [apply (edge_event_out o)| |].
    + exists []. rewrite app_nil_r. split; [constructor|auto].
    + intros f s' H'. apply Any_complete in H' as (b & c & H1 & H2).
      destruct (edges_word_ex q ps) as [w Hw].
      exists (b ++ EvEdge (mkEdge p q) :: w), (c ++ EvEdge (mkEdge p q) :: w). split; [constructor; auto|].
      rewrite app_assoc, H2, <- app_assoc. reflexivity.
    + intros u s' (b & H1 & H2). apply wp_bind, wp_emit.
      eapply wp_mono; [apply (IH _ (o ++ b ++ [EvEdge (mkEdge p q)]))| |].
      * rewrite evs_emit, H2, <- app_assoc. reflexivity.
      * intros f s'' (w & rest & W1 & W2). exists (b ++ EvEdge (mkEdge p q) :: w), rest.
        split; [constructor; auto|]. rewrite <- W2, <- !app_assoc. reflexivity.
      * intros u' s'' (w & W1 & W2). exists (b ++ EvEdge (mkEdge p q) :: w). split; [constructor; auto|].
        rewrite W2, <- !app_assoc. reflexivity.
Qed.

Definition ids_of (l : list (nat * Point * PointEdges)) : list (nat * list nat) :=
  map (fun x => (fst (fst x), edges_list (snd x))) l.

Lemma sweep_loop_wp fuel : forall l s o, evs s = o ->
  wp (sweep_loop dbg points fuel l) s (fun _ => stops o (sweep_word (ids_of l)))
     (fun _ s' => exists w, sweep_word (ids_of l) w /\ evs s' = o ++ w).
Proof.
  induction l as [|[[i p] es] l IH]; intros s o H; simpl.
  - apply wp_skip. exists []. rewrite app_nil_r. split; [constructor|auto].
  - destruct (sweep_word_ex (ids_of l)) as [w0 Hw0]. destruct (edges_word_ex i (edges_list es)) as [we0 Hwe0].
    apply wp_bind, wp_emit. apply wp_bind.
    eapply wp_mono; [apply (point_event_out (o ++ [EvEnterPoint i]))| |].
    + exists []. rewrite app_nil_r, evs_emit, H. split; [constructor|auto].
    + intros f s' H'. apply Any_complete in H' as (b & c & H1 & H2).
      exists (EvEnterPoint i :: b ++ EvExitPoint i :: we0 ++ w0), (c ++ EvExitPoint i :: we0 ++ w0).
      split; [constructor; auto|]. rewrite app_assoc, <- H2, <- !app_assoc. reflexivity.
    + intros u s1 (b & H1 & H2). apply wp_bind, wp_emit. apply wp_bind.
      eapply wp_mono; [apply (edges_loop_wp fuel i p (edges_list es) _ (o ++ EvEnterPoint i :: b ++ [EvExitPoint i]))| |].
      * rewrite evs_emit, H2, <- !app_assoc. reflexivity.
      * intros f s' (w & rest & W1 & W2). exists (EvEnterPoint i :: b ++ EvExitPoint i :: w ++ w0), (rest ++ w0).
        split; [constructor; auto|]. rewrite app_assoc, <- W2, <- !app_assoc. simpl. rewrite <- !app_assoc. reflexivity.
      * intros u2 s2 (we & We & H3). apply wp_bind.
        assert (G : forall (Q : unit -> Sweeper -> Prop), Q tt s2 ->
          wp (if dbg then bind get_tris (fun ts => bind (lift (verify_triangles dbg points ts)) (fun ok =>
                bind (lift (rassert P_dbg_verify ok)) (fun _ => skip))) else skip) s2
             (fun _ => stops o (sweep_word ((i, edges_list es) :: ids_of l))) Q).
        { assert (ST : stops o (sweep_word ((i, edges_list es) :: ids_of l)) s2).
          { exists (EvEnterPoint i :: b ++ EvExitPoint i :: we ++ w0), w0. split; [constructor; auto|].
            rewrite H3, <- !app_assoc. simpl. rewrite <- !app_assoc. reflexivity. }
          intros Q HQ. destruct dbg; [|exact HQ].
          apply wp_bind, wp_get_tris. apply wp_bind, wp_lift.
          destruct (verify_triangles true points (s_tris s2)); simpl; auto.
          apply wp_bind, wp_lift. destruct a; simpl; auto. }
        apply G. eapply wp_mono; [apply (IH _ (o ++ EvEnterPoint i :: b ++ EvExitPoint i :: we))| |].
        -- rewrite H3, <- !app_assoc. simpl. rewrite <- !app_assoc. reflexivity.
        -- intros f s' (w & rest & W1 & W2). exists (EvEnterPoint i :: b ++ EvExitPoint i :: we ++ w), rest.
           split; [constructor; auto|]. rewrite <- W2, <- !app_assoc. simpl. rewrite <- !app_assoc. reflexivity.
        -- intros u' s'' (w & W1 & W2). exists (EvEnterPoint i :: b ++ EvExitPoint i :: we ++ w).
           split; [constructor; auto|]. rewrite W2, <- !app_assoc. simpl. rewrite <- !app_assoc. reflexivity.
Qed.

Lemma trace_only (I : Sweeper -> Prop) : (forall s s', s_trace s = s_trace s' -> I s -> I s') ->
  forall fuel, pres I I (finalize_polygon fuel).
Proof.
  intros X fuel. assert (IJ : forall s, I s -> I s) by auto.
  assert (HT := fun ts => pres_put_tris I I ts X).
  assert (HR : forall t, pres I I (push_result t)).
  { intros t s Hs. apply wp_push_result. eapply X; [|exact Hs]. reflexivity. }
  assert (G : forall fuel st, pres I I (clean_loop fuel st)).
  { induction fuel0; intros; simpl; pres_go IJ; auto. }
  unfold finalize_polygon, clean_mesh. pres_go IJ; auto.
Qed.

Definition order_of : res (list (nat * list nat)) :=
  let! l := iter_point_by_y points 1 in Done (ids_of l).

Lemma run_body_wp fuel s l : evs s = [] -> order_of = Done l ->
  wp (run_body dbg fuel points) s (fun _ s' => exists w rest, run_word l w /\ w = evs s' ++ rest)
     (fun _ s' => run_word l (evs s')).
Proof.
  unfold order_of. intros H Ho.
  destruct (iter_point_by_y points 1) as [l0| | |] eqn:E; try discriminate. injection Ho as <-.
  unfold run_body, sweep_points.
  apply wp_bind. apply wp_bind. apply wp_lift. rewrite E. simpl.
  eapply wp_mono; [apply (sweep_loop_wp fuel l0 s []); auto| |].
  - intros f s' (w & rest & W1 & W2). exists (w ++ [EvSweepDone; EvFinalized]), (rest ++ [EvSweepDone; EvFinalized]).
    split; [exists w; auto|]. simpl in W2. rewrite W2, <- app_assoc. reflexivity.
  - intros u s' (w & W1 & W2). simpl in W2. apply wp_bind, wp_emit. apply wp_bind.
    eapply wp_mono; [apply (trace_only (fun s' => evs s' = w ++ [EvSweepDone]))| |].
    + intros a b Hab Ha. rewrite <- Ha. symmetry. apply evs_ext; auto.
    + rewrite evs_emit, W2. reflexivity.
    + intros f s'' H''. exists (w ++ [EvSweepDone; EvFinalized]), [EvFinalized]. split; [exists w; auto|].
      rewrite H'', <- app_assoc. reflexivity.
    + intros u' s'' H''. apply wp_emit. exists w. rewrite evs_emit, H'', <- app_assoc. auto.
Qed.

End S.
