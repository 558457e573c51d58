(** * PropsSafe: C09-C13 - ranges, the result, the iterator *)
From Coq Require Import List Arith Bool Lia Permutation ZArith.
From Verif Require Import Base Num Shape ShapeSpec Utils Points Triangles Front Sweeper Cdt F64 Lists BuilderSpec History
  BuilderRange SortSpec Monad Traverse TraceSpec Grow Spec PropsBuilder PropsTrace Safe SafeSweep Flood PropsRefuted.
Import ListNotations.

Section S.
Context {A : Arith}.

(** ** the initial state *)
Lemma key_insert_perm e : forall l, Permutation (key_insert e l) (e :: l).
Proof.
  induction l as [|x l IH]; simpl; auto. destruct (key_cmp _ _); auto;
    (eapply perm_trans; [apply perm_skip, IH|apply perm_swap]).
Qed.
Lemma key_sort_perm : forall l acc, Permutation (key_sort acc l) (l ++ acc).
Proof.
  induction l as [|x l IH]; intro acc; simpl; auto. eapply perm_trans; [apply IH|].
  eapply perm_trans; [apply Permutation_app_head, key_insert_perm|]. apply Permutation_sym, Permutation_middle.
Qed.
(** the front starts with a key that is not after any input point *)
Definition starts_low (pts : list Point) : Prop := forall es s e p, run_init (points_new pts es) = Done s ->
  nth_error (nodes (s_front s)) 0 = Some e -> In p pts -> key_cmp (en_key e) p <> Gt.
Lemma run_init_RE pts es s : run_init (points_new pts es) = Done s ->
  RE (points_new pts es) pts (starts_low pts) 1 s /\ s_trace s = [].
Proof.
  intro H. pose proof H as H0. revert H. unfold run_init, get_id_by_y. intro H.
  destruct (ps_y_sorted (points_new pts es)) as [|lowest order] eqn:Y; [discriminate|]. cbn [nth_error unwrap rbind ts_insert app length] in H.
  unfold ts_get, get_unchecked in H. cbn [nth_error unwrap rbind] in H.
  assert (Lw : lowest < length pts).
  { assert (In lowest (seq 0 (length pts))) as I by (apply (Permutation_in _ (y_sorted_perm pts es)); rewrite Y; left; auto).
    apply in_seq in I. lia. }
  unfold front_new, get_point in H. cbn [t_points tri_new a0 a1 a2 ps_points ps_head ps_tail points_new] in H.
  destruct (nth_error _ (length pts)) as [ph|]; [|discriminate].
  destruct (nth_error _ lowest) as [pl|]; [|discriminate].
  destruct (nth_error _ (S (length pts))) as [pt0|]; [|discriminate].
  cbn [unwrap rbind] in H. injection H as H. rewrite <- H. split; [|reflexivity].
  assert (N2 : length (ps_points (points_new pts es)) = length pts + 2) by (simpl; rewrite app_length; reflexivity).
  split; [|split; [|reflexivity]].
  - cbn [s_tris]. rewrite N2. split; auto. repeat constructor; intros []; unfold V, NB; simpl; auto; lia.
  - cbn [s_front]. rewrite N2. split; [|split; [discriminate|]]; cbn [nodes].
    2:{ pose proof (key_sort_perm [mkEntry ph (length pts) (Some 0); mkEntry pl lowest (Some 0); mkEntry pt0 (S (length pts)) None] []) as P.
        change (key_sort [] _) with (nodes (s_front (mkSw [tri_new lowest (length pts) (S (length pts))]
          (mkFront (key_sort [] [mkEntry ph (length pts) (Some 0); mkEntry pl lowest (Some 0); mkEntry pt0 (S (length pts)) None]) None) [] []))) in P.
        match type of H with ?x = s => change x with (mkSw [tri_new lowest (length pts) (S (length pts))]
          (mkFront (key_sort [] [mkEntry ph (length pts) (Some 0); mkEntry pl lowest (Some 0); mkEntry pt0 (S (length pts)) None]) None) [] []) in H end.
        rewrite H in P. match goal with |- exists e, nth_error ?l 0 = _ /\ _ => change l with (nodes (s_front (mkSw [tri_new lowest (length pts) (S (length pts))]
          (mkFront (key_sort [] [mkEntry ph (length pts) (Some 0); mkEntry pl lowest (Some 0); mkEntry pt0 (S (length pts)) None]) None) [] []))) end.
        rewrite H. destruct (nodes (s_front s)) as [|e0 l'] eqn:Ks.
        - apply Permutation_nil in P. discriminate.
        - exists e0. split; [reflexivity|]. intros L p Hp. apply (L es s e0 p H0); auto. rewrite Ks. reflexivity. }
    apply Forall_forall. intros e I.
    match type of I with context [mkEntry ph ?a ?b] => 
      apply (Permutation_in e (key_sort_perm [mkEntry ph (length pts) (Some 0); mkEntry pl lowest (Some 0); mkEntry pt0 (S (length pts)) None] [])) in I end.
    simpl in I. destruct I as [<-|[<-|[<-|[]]]]; split; simpl; lia || auto.
Qed.

(** items of the sweep are in range *)
Lemma items_ok PD src calls (b : Builder PD) : builder_of PD src calls = Done b ->
  exists l, iter_point_by_y (c_points (build PD b)) 1 = Done l /\ Forall (item_ok (c_points (build PD b)) (pb_points (bd_points b))) l.
Proof.
  intro B. pose proof (builder_BE PD src calls b B) as [W E].
  destruct (iter_point_ok (pb_points (bd_points b)) (pb_edges (bd_points b)) W) as (l & El & F).
  exists l. split; auto.
  assert (N2 : length (ps_points (c_points (build PD b))) = length (pb_points (bd_points b)) + 2)
    by (simpl; rewrite app_length; reflexivity).
  clear El. revert F. generalize (tl (ps_y_sorted (points_new (pb_points (bd_points b)) (pb_edges (bd_points b))))).
  intros ids F. induction F as [|id x ids l (H1 & H2 & H3) F IH]; constructor; auto.
  unfold item_ok. rewrite N2. split; [|split].
  - rewrite H1. apply nth_error_lt in H2. lia.
  - eapply nth_error_In; eauto.
  - unfold EB in E. rewrite Forall_forall in E. specialize (E _ (nth_error_In _ _ H3)).
    eapply Forall_impl; [|exact E]. simpl. intros; lia.
Qed.

(** ** finalization *)
Section Fin.
Variables N m : nat.
Lemma find_interior_okr dbg low ts p : SO N m ts -> forall fuel t, vt m t ->
  okr (find_interior fuel ts p t) (allowed dbg low)
    (fun r => match t with None => r = None | Some i => fan ts p i r end).
Proof using.
  intros S. induction fuel as [|f IH]; intros t T; cbn [find_interior]; [exact I|].
  apply okr_bind. destruct t as [i|]; [|reflexivity]. unfold ts_get. apply okr_bind. apply okr_get; [destruct S; simpl in *; lia|].
  intros tr E. cbn [rbind okr].
  apply okr_bind. unfold constrained_edge_cw. destruct (point_index tr p) as [k|] eqn:P; [|exact I].
  pose proof P as P0. apply point_index_some in P.
  assert (G : okr (if negb (tri_is_constrained tr (nxt k)) then let! t' := neighbor_ccw tr p in find_interior f ts p t' else Done (Some i)) (allowed dbg low) (fan ts p i)).
  { destruct (tri_is_constrained tr (nxt k)) eqn:C; cbn [negb].
    - simpl. eapply fan_stop; eauto.
    - assert (Q : neighbor_ccw tr p = Done (get3 (t_neighbors tr) (prv k))).
      { unfold neighbor_ccw, by_point. cbv zeta. revert P0. unfold point_index. rewrite !(Nat.eqb_sym p).
        repeat match goal with |- context [if ?x then _ else _] => destruct x end; intro Q; try discriminate; injection Q as <-; reflexivity. }
      rewrite Q. cbn [rbind]. assert (TT : TO N m tr) by (eapply SO_nth; eauto). destruct TT as (_ & TT & _). specialize (TT (prv k)). unfold NB in TT.
      eapply okr_mono; [apply IH; exact TT|auto|]. intros r Hr. destruct (get3 (t_neighbors tr) (prv k)) as [b|] eqn:Eb.
      + eapply fan_step; eauto.
      + subst r. eapply fan_out; eauto. }
  destruct k; exact G.
Qed.
End Fin.

Lemma fan_seed ts p a s : fan ts p a (Some s) -> exists t k, nth_error ts s = Some t /\ get3 (t_points t) k = p /\ tri_is_constrained t (nxt k) = true.
Proof.
  intro H. remember (Some s) as r eqn:R. revert R. induction H; intro R; [|discriminate|auto]. injection R as <-. eauto.
Qed.
(** what finalization does, from an in-range state *)
Definition final_spec (ts0 : TriangleStore) (af : AdvancingFront) (ts : TriangleStore) (result : list tid) : Prop :=
  marked ts0 ts result /\ NoDup result /\
  match nth_error (nodes af) 1 with
  | Some e => match en_tri e with
    | Some first => exists seed, fan ts0 (en_pid e) first seed /\
        forall t, In t result <-> exists s i, seed = Some s /\ t = Some i /\ region ts0 s i
    | None => result = []
    end
  | None => result = []
  end.

Lemma finalize_wp dbg ps pts low m fuel s : RE ps pts low m s ->
  wp (finalize_polygon fuel) s (fun f s' => allowed dbg low f /\ s_trace s' = s_trace s)
    (fun _ s' => s_trace s' = s_trace s /\ s_front s' = s_front s /\ final_spec (s_tris s) (s_front s) (s_tris s') (s_result s') /\
                 (forall t, In t (s_result s') -> exists i, t = Some i /\ i < m)).
Proof.
  intros (H1 & H2 & H3). unfold finalize_polygon.
  assert (Nop : marked (s_tris s) (s_tris s) []).
  { split; auto. intros i a b E1 E2. assert (a = b) by congruence. subst b.
    assert (TO (length (ps_points ps)) m a) as (_ & _ & In0) by (eapply SO_nth; eauto). rewrite In0.
    repeat split; auto; intro K; try discriminate; tauto. }
  apply wp_bind, wp_get_front. unfold front_nth. destruct (nth_error (nodes (s_front s)) 1) as [e|] eqn:E1.
  2:{ apply wp_skip. rewrite H3. repeat (split; auto); [constructor|rewrite E1; auto|intros t []]. }
  simpl. destruct (en_tri e) as [t|] eqn:E2.
  2:{ apply wp_skip. rewrite H3. repeat (split; auto); [constructor|rewrite E1, E2; auto|intros t []]. }
  apply wp_bind, wp_get_tris, wp_bind, wp_lift.
  assert (Ve : vt m (en_tri e)). { destruct H2 as [F _]. rewrite Forall_forall in F. apply F. eapply nth_error_In; eauto. }
  rewrite E2 in Ve.
  eapply okr_mono; [apply (find_interior_okr (length (ps_points ps)) m dbg low); eauto|auto|].
  intros r Hr. destruct r as [seed|]; cbn [tid_invalid negb].
  2:{ apply wp_skip. rewrite H3. repeat (split; auto); [constructor| |intros x []]. rewrite E1, E2. exists None. split; [exact Hr|].
      intro x. split; [intros []|]. intros (? & ? & ? & _). discriminate. }
  destruct (fan_seed _ _ _ _ Hr) as (tr & k & T1 & T2 & T3).
  assert (Ls : seed < m). { apply nth_error_lt in T1. destruct H1 as [L0 _]. lia. }
  eapply wp_mono; [apply (clean_mesh_wp (length (ps_points ps)) m (s_tris s)); auto| |].
  { intros f s' (-> & -> & _). split; [exact I|auto]. }
  intros u s' (K1 & K2 & K3 & K4 & K5 & K6). repeat (split; auto).
  rewrite E1, E2. exists (Some seed). split; [exact Hr|]. intro x. rewrite K5. split.
  - intros (i & -> & H). exists seed, i. auto.
  - intros (s0 & i & H & -> & H'). injection H as <-. eauto.
Qed.
End S.

(** ** The whole run *)

(** Ranges of everything a callback is shown: n input points and two
    artificial ones, triangle ids within the store shown. *)
Definition in_range {A : Arith} (n : nat) (c : callback) : Prop :=
  (forall t i, In t (cb_tris c) -> get3 (t_points t) i < n + 2 /\
     match get3 (t_neighbors t) i with Some j => j < length (cb_tris c) | None => True end) /\
  (forall e, In e (nodes (cb_front c)) -> en_pid e < n + 2 /\
     match en_tri e with Some j => j < length (cb_tris c) | None => True end) /\
  (forall r, In r (cb_result c) -> exists j, r = Some j /\ j < length (cb_tris c)).

Section RunS.
Context {A : Arith}.

Lemma SOFO_range n m K ts af e : SO (n + 2) m ts -> FO (n + 2) m K af -> in_range n (mkCb e ts af []).
Proof.
  intros [L F] (F2 & _). rewrite Forall_forall in F, F2. split; [|split]; simpl.
  - intros t i I. destruct (F t I) as (H1 & H2 & _). specialize (H1 i). specialize (H2 i). split; auto.
    unfold NB in H2. destruct (get3 (t_neighbors t) i); simpl in *; auto; lia.
  - intros x I. destruct (F2 x I) as (H1 & H2). split; auto. destruct (en_tri x); simpl in *; auto; lia.
  - intros r [].
Qed.
Lemma cb_ok_range ps pts low n c : length (ps_points ps) = n + 2 -> cb_ok ps pts low c -> in_range n c.
Proof.
  intros L (m & H1 & H2 & H3). rewrite L in *. destruct c as [e ts af r]. simpl in *. subst r. eapply SOFO_range; eauto.
Qed.
Lemma marked_range n ts0 ts af e r : in_range n (mkCb e ts0 af []) -> marked ts0 ts r ->
  (forall t, In t r -> exists i, t = Some i /\ i < length ts0) -> in_range n (mkCb e ts af r).
Proof.
  intros (H1 & H2 & _) [L M] H3. simpl in *. split; [|split]; simpl; rewrite ?L; auto.
  intros t i I. apply In_nth_error in I as [k K]. pose proof (nth_error_lt _ _ _ K) as Lk. rewrite L in Lk.
  destruct (nth_error_ex ts0 k Lk) as [t0 T0]. destruct (M k t0 t T0 K) as (-> & -> & _). apply H1. eapply nth_error_In; eauto.
Qed.

(** the shape of a run *)
Lemma run_safe {PD} dbg fuel src calls (b : Builder PD) : builder_of PD src calls = Done b ->
  forall r s, run dbg fuel (c_points (build PD b)) = (r, s) ->
  let n := length (history_points PD src calls) in
  okr r (fun f => allowed dbg (starts_low (history_points PD src calls)) f /\ Forall (in_range n) (s_trace s))
    (fun _ => exists ts0 pre, Forall (in_range n) (s_trace s) /\
       s_trace s = mkCb EvFinalized (s_tris s) (s_front s) (s_result s) :: mkCb EvSweepDone ts0 (s_front s) [] :: pre /\
       final_spec ts0 (s_front s) (s_tris s) (s_result s)).
Proof.
  intros B r s R n. pose proof (items_ok PD src calls b B) as (l & L & F).
  apply builder_of_points in B as (B1 & _ & W).
  assert (N2 : length (ps_points (c_points (build PD b))) = n + 2)
    by (simpl; rewrite app_length; unfold n; rewrite B1; reflexivity).
  unfold run in R. change (c_points (build PD b)) with (points_new (pb_points (bd_points b)) (pb_edges (bd_points b))) in *.
  rewrite <- B1. set (pts := pb_points (bd_points b)) in *. set (low := starts_low pts).
  set (ps := points_new _ _) in *.
  destruct (run_init ps) as [s0|p|u|] eqn:Ri.
  2:{ injection R as <- <-. simpl. auto. }
  2:{ exfalso. unfold run_init in Ri. destruct (get_id_by_y ps 0); [|discriminate]. simpl in Ri. unfold ts_get, get_unchecked in Ri. simpl in Ri.
      unfold front_new, get_point in Ri. simpl in Ri.
      repeat match type of Ri with context [unwrap _ ?o] => destruct o; simpl in Ri; try discriminate end. }
  2:{ exfalso. unfold run_init in Ri. destruct (get_id_by_y ps 0); [|discriminate]. simpl in Ri. unfold ts_get, get_unchecked in Ri. simpl in Ri.
      unfold front_new, get_point in Ri. simpl in Ri.
      repeat match type of Ri with context [unwrap _ ?o] => destruct o; simpl in Ri; try discriminate end. }
  apply run_init_RE in Ri as [H0 T0]. fold ps low in H0.
  assert (G : wp (run_body dbg fuel ps) s0 (fun f s' => allowed dbg low f /\ Forall (in_range n) (s_trace s'))
    (fun _ s' => exists ts0 pre, Forall (in_range n) (s_trace s') /\
       s_trace s' = mkCb EvFinalized (s_tris s') (s_front s') (s_result s') :: mkCb EvSweepDone ts0 (s_front s') [] :: pre /\
       final_spec ts0 (s_front s') (s_tris s') (s_result s'))).
  2:{ eapply wp_run in G; eauto. }
  assert (CR : forall tr, Forall (cb_ok ps pts low) tr -> Forall (in_range n) tr).
  { intros tr. apply Forall_impl. intro c. apply cb_ok_range; auto. }
  unfold run_body, sweep_points. apply wp_bind, wp_bind, wp_lift. rewrite L. simpl.
  eapply wp_mono; [apply (sweep_loop_safe dbg ps pts low fuel l F s0)| |].
  { exists 1. exact H0. } { unfold TR. rewrite T0. constructor. }
  { intros f s1 [H1 H2]. split; auto. }
  intros u s1 ((m & M1) & M2 & _). clear u. apply wp_bind, wp_emit, wp_bind.
  destruct M1 as (M1 & M3 & M4).
  assert (M5 : RE ps pts low m (mkSw (s_tris s1) (s_front s1) (s_result s1) (mkCb EvSweepDone (s_tris s1) (s_front s1) (s_result s1) :: s_trace s1)))
    by (repeat split; auto; apply M1 || apply M3).
  assert (R1 : in_range n (mkCb EvSweepDone (s_tris s1) (s_front s1) [])) by (rewrite N2 in *; eapply SOFO_range; eauto).
  eapply wp_mono; [apply (finalize_wp dbg ps pts low m fuel _ M5)| |].
  { simpl. intros f s2 [H1 ->]. split; auto. rewrite M4. constructor; auto. }
  simpl. intros u s2 (K1 & K2 & K3 & K4). clear u. apply wp_emit. simpl.
  exists (s_tris s1), (s_trace s1). split; [|split].
  - rewrite K1, M4. constructor; [|constructor; auto].
    apply (marked_range n (s_tris s1)); [|apply K3|].
    + rewrite K2. exact R1.
    + intros t It. destruct M1 as [-> _]. auto.
  - rewrite K1, K2, M4. reflexivity.
  - rewrite K2. exact K3.
Qed.

(** *** C13.  Missing for the full property: aliasing (refuted, see C30), and
    for builds without debug assertions the access of sweeper.rs:921 through an
    INVALID id (refuted, C13_out_of_range_refuted).  The underflow of locate_node is
    possible only if the front does not start low: never on f64 (C13_front_never_underflows). *)
Theorem C13_unchecked_in_range_partial : forall PD dbg fuel src calls (b : Builder PD) r cbs,
  builder_of PD src calls = Done b -> observed dbg fuel (build PD b) = (r, cbs) ->
  (forall u, r = Ub u -> u = U_alias \/ (dbg = false /\ (u = U_flip_across \/ (u = U_front /\ ~ starts_low (history_points PD src calls))))) /\
  Forall (in_range (length (history_points PD src calls))) cbs.
Proof.
  intros PD dbg fuel src calls b r cbs B O.
  apply observed_run in O as (r' & s & R & -> & _ & ->).
  pose proof (run_safe dbg fuel src calls b B r' s R) as H.
  destruct r' as [x|p|u|]; simpl in *.
  - split; [discriminate|]. destruct H as (? & ? & H & _). apply Forall_rev; auto.
  - split; [discriminate|]. apply Forall_rev, H.
  - split; [|apply Forall_rev, H]. intros u' E. injection E as <-. destruct H as [H _]. destruct u; simpl in *; tauto.
  - split; [discriminate|]. apply Forall_rev, H.
Qed.

(** *** C10, C11.  The mesh shown at SweepDone determines the result: the region of the triangle
    found by turning around the front's second point from the triangle below its front edge on;
    nothing if the turn leaves the mesh (or there is no second point or no such triangle). *)
Theorem C11_result_is_region : forall PD dbg fuel src calls (b : Builder PD) t cbs,
  builder_of PD src calls = Done b -> observed dbg fuel (build PD b) = (Done t, cbs) ->
  exists pre cbD cbF, cbs = pre ++ [cbD; cbF] /\ cb_event cbD = EvSweepDone /\ cb_event cbF = EvFinalized /\
    cb_tris cbF = tr_triangles t /\ cb_result cbF = tr_result t /\ cb_front cbF = cb_front cbD /\
    marked (cb_tris cbD) (tr_triangles t) (tr_result t) /\
    match nth_error (nodes (cb_front cbD)) 1 with
    | Some e => match en_tri e with
      | Some first => exists seed, fan (cb_tris cbD) (en_pid e) first seed /\
          forall x, In x (tr_result t) <-> exists s i, seed = Some s /\ x = Some i /\ region (cb_tris cbD) s i
      | None => tr_result t = []
      end
    | None => tr_result t = []
    end.
Proof.
  intros PD dbg fuel src calls b t cbs B O.
  apply observed_run in O as (r' & s & R & -> & _ & E).
  pose proof (run_safe dbg fuel src calls b B r' s R) as H.
  destruct r' as [x|p|u|]; simpl in *; try discriminate. injection E as E; subst t; simpl.
  destruct H as (ts0 & pre & H1 & H2 & H3 & H4 & H5).
  exists (rev pre), (mkCb EvSweepDone ts0 (s_front s) []), (mkCb EvFinalized (s_tris s) (s_front s) (s_result s)).
  rewrite H2. simpl. rewrite <- app_assoc. simpl. repeat (split; auto).
Qed.
Theorem C10_result_distinct : forall PD dbg fuel src calls (b : Builder PD) t cbs,
  builder_of PD src calls = Done b -> observed dbg fuel (build PD b) = (Done t, cbs) ->
  NoDup (tr_result t) /\ (forall x, In x (tr_result t) -> exists i, x = Some i /\ i < length (tr_triangles t)).
Proof.
  intros PD dbg fuel src calls b t cbs B O.
  apply observed_run in O as (r' & s & R & -> & _ & E).
  pose proof (run_safe dbg fuel src calls b B r' s R) as H.
  destruct r' as [x|p|u|]; simpl in *; try discriminate. injection E as E; subst t; simpl.
  destruct H as (ts0 & pre & H1 & H2 & H3 & H4 & H5). split; auto.
  rewrite H2 in H1. inversion H1 as [|x1 x2 (_ & _ & H) _]; subst. exact H.
Qed.

(** *** C09 *)
Lemma indices_loop_ok dbg ts l : (forall x, In x l -> exists i, x = Some i /\ i < length ts) ->
  exists ids, indices_loop dbg ts l = Done ids /\ length ids = 3 * length l /\
    forall k x, nth_error l k = Some x -> exists i t, x = Some i /\ nth_error ts i = Some t /\
      nth_error ids (3 * k) = Some (a0 (t_points t)) /\ nth_error ids (3 * k + 1) = Some (a1 (t_points t)) /\
      nth_error ids (3 * k + 2) = Some (a2 (t_points t)).
Proof.
  induction l as [|x l IH]; intro H.
  - exists []. simpl. repeat split. intros [|k] y E; discriminate.
  - destruct IH as (ids & E & L & G); [intros; apply H; right; auto|].
    destruct (H x (or_introl eq_refl)) as (i & -> & Li). destruct (nth_error_ex ts i Li) as [t T].
    exists (a0 (t_points t) :: a1 (t_points t) :: a2 (t_points t) :: ids).
    cbn [indices_loop]. assert (Q : ts_get_unchecked dbg ts (Some i) = Done t).
    { unfold ts_get_unchecked. case dbg; unfold rassert; simpl; unfold get_unchecked; rewrite T; reflexivity. }
    rewrite Q. cbn [rbind]. rewrite E. cbn [rbind]. split; auto. split; [simpl; lia|].
    intros [|k] y K.
    + simpl in K. injection K as <-. exists i, t. simpl. auto.
    + simpl in K. destruct (G k y K) as (j & t' & -> & T' & G0 & G1 & G2). exists j, t'. split; auto. split; auto.
      replace (3 * S k) with (S (S (S (3 * k)))) by lia. simpl in *. auto.
Qed.

(** calling [next] until it answers None, at most n times *)
Fixpoint iterate {PD} dbg (n : nat) (t : Triangles PD) : res (list Triangle * Triangles PD) :=
  match n with
  | 0 => Done ([], t)
  | S n' =>
      let! (o, t') := triangles_next dbg PD t in
      match o with
      | None => iterate dbg n' t'
      | Some x => let! (l, t'') := iterate dbg n' t' in Done (x :: l, t'')
      end
  end.

Definition set_next {PD} (t : Triangles PD) (n : nat) : Triangles PD :=
  mkTriangles PD (tr_points t) (tr_data t) (tr_triangles t) (tr_result t) n.

(** every result triangle is in range of the store and its corners in range of the points *)
Definition result_ok {PD} (t : Triangles PD) : Prop :=
  (forall x, In x (tr_result t) -> exists i, x = Some i /\ i < length (tr_triangles t)) /\
  (forall tr i, In tr (tr_triangles t) -> get3 (t_points tr) i < length (ps_points (tr_points t))).

Lemma next_ok {PD} dbg (t : Triangles PD) k x : result_ok t -> nth_error (tr_result t) k = Some x ->
  exists i tr p0 p1 p2, x = Some i /\ nth_error (tr_triangles t) i = Some tr /\
    nth_error (ps_points (tr_points t)) (a0 (t_points tr)) = Some p0 /\
    nth_error (ps_points (tr_points t)) (a1 (t_points tr)) = Some p1 /\
    nth_error (ps_points (tr_points t)) (a2 (t_points tr)) = Some p2 /\
    triangles_next dbg PD (set_next t k) = Done (Some (mkTriangle (mkArr p0 p1 p2)), set_next t (k + 1)).
Proof.
  intros [H1 H2] E. destruct (H1 x (nth_error_In _ _ E)) as (i & -> & Li).
  destruct (nth_error_ex _ i Li) as [tr T]. pose proof (fun j => H2 tr j (nth_error_In _ _ T)) as P.
  destruct (nth_error_ex _ _ (P I0)) as [p0 P0]. destruct (nth_error_ex _ _ (P I1)) as [p1 P1].
  destruct (nth_error_ex _ _ (P I2)) as [p2 P2]. simpl in *.
  exists i, tr, p0, p1, p2. repeat (split; auto).
  unfold triangles_next. cbn [set_next tr_next tr_result tr_triangles tr_points].
  pose proof (nth_error_lt _ _ _ E) as Lk. apply Nat.ltb_lt in Lk. rewrite Lk.
  unfold get_unchecked at 1. rewrite E. cbn [rbind].
  assert (Q : ts_get_unchecked dbg (tr_triangles t) (Some i) = Done tr).
  { unfold ts_get_unchecked. case dbg; unfold rassert; simpl; unfold get_unchecked; rewrite T; reflexivity. }
  rewrite Q. cbn [rbind]. unfold get_point_uncheck, get_unchecked. rewrite P0, P1, P2. reflexivity.
Qed.
Lemma next_end {PD} dbg (t : Triangles PD) k : length (tr_result t) <= k -> triangles_next dbg PD (set_next t k) = Done (None, set_next t k).
Proof.
  intro H. unfold triangles_next. cbn [set_next tr_next tr_result]. apply Nat.ltb_ge in H. rewrite H. reflexivity.
Qed.

(** the iterator returned by triangulate starts at 0; from then on, whatever
    the number of calls, its state is [set_next t k] *)
Theorem C09_iterator_and_indices : forall PD dbg fuel src calls (b : Builder PD) t cbs,
  builder_of PD src calls = Done b -> observed dbg fuel (build PD b) = (Done t, cbs) ->
  exists ids, triangle_list_indices dbg PD t = Done ids /\ length ids = 3 * length (tr_result t) /\
    (forall n, exists l k, iterate dbg n t = Done (l, set_next t k) /\ length l = Nat.min n (length (tr_result t)) /\ k = length l /\
       (forall j x, nth_error l j = Some x -> forall i, exists id,
          nth_error ids (3 * j + match i with I0 => 0 | I1 => 1 | I2 => 2 end) = Some id /\
          nth_error (history_points PD src calls ++ [head_point (history_points PD src calls); tail_point (history_points PD src calls)]) id
            = Some (get3 (tri_points x) i))) /\
    (forall k, length (tr_result t) <= k -> triangles_next dbg PD (set_next t k) = Done (None, set_next t k)).
Proof.
  intros PD dbg fuel src calls b t cbs B O.
  destruct (C10_result_distinct PD dbg fuel src calls b t cbs B O) as [_ D].
  pose proof (C13_unchecked_in_range_partial PD dbg fuel src calls b _ _ B O) as [_ RG].
  destruct (C11_result_is_region PD dbg fuel src calls b t cbs B O) as (pre & cbD & cbF & -> & _ & _ & Ft & _).
  apply Forall_app in RG as [_ RG]. inversion RG as [|? ? _ RG']; subst. inversion RG' as [|? ? (RG1 & _) _]; subst. clear RG RG'.
  rewrite Ft in RG1.
  apply observed_run in O as (r' & s & R & _ & _ & E). destruct r'; try discriminate. injection E as E.
  apply builder_of_points in B as (B1 & _ & _).
  assert (PT : ps_points (tr_points t) = history_points PD src calls ++ [head_point (history_points PD src calls); tail_point (history_points PD src calls)]).
  { rewrite E. simpl. rewrite B1. reflexivity. }
  assert (RO : result_ok t).
  { split; auto. intros tr i It. rewrite PT, app_length. simpl. apply (RG1 tr i It). }
  assert (T0 : t = set_next t 0) by (rewrite E; reflexivity).
  rewrite <- PT. clear E.
  destruct (indices_loop_ok dbg (tr_triangles t) (tr_result t)) as (ids & E & L & G).
  { intros x Hx. apply (D x Hx). }
  exists ids. split; [exact E|]. split; [exact L|]. split; [|intros; apply next_end; auto].
  assert (IT : forall n k, k <= length (tr_result t) -> exists l, iterate dbg n (set_next t k) = Done (l, set_next t (k + length l)) /\
     length l = Nat.min n (length (tr_result t) - k) /\
     forall j x, nth_error l j = Some x -> forall i, exists id,
          nth_error ids (3 * (k + j) + match i with I0 => 0 | I1 => 1 | I2 => 2 end) = Some id /\
          nth_error (ps_points (tr_points t)) id = Some (get3 (tri_points x) i)).
  { induction n as [|n IH]; intros k Lk; cbn [iterate].
    - exists []. rewrite Nat.add_0_r. repeat split; auto. intros [|j] x Q; discriminate.
    - destruct (Nat.eq_dec k (length (tr_result t))) as [Ek|Nk].
      + rewrite next_end by lia. cbn [rbind]. destruct (IH k Lk) as (l & H1 & H2 & H3). exists l. rewrite H1. repeat split; auto; lia.
      + destruct (nth_error_ex (tr_result t) k) as [x X]; [lia|].
        destruct (next_ok dbg t k x RO X) as (i & tr & p0 & p1 & p2 & -> & T & P0 & P1 & P2 & ->). cbn [rbind].
        destruct (IH (k + 1)) as (l & H1 & H2 & H3); [lia|]. rewrite H1. cbn [rbind].
        exists (mkTriangle (mkArr p0 p1 p2) :: l). split; [do 2 f_equal; replace (k + length (mkTriangle (mkArr p0 p1 p2) :: l)) with (k + 1 + length l) by (simpl; lia); reflexivity|]. split; [cbn [length]; lia|].
        intros [|j] y Q.
        * simpl in Q. injection Q as <-. destruct (G k _ X) as (i' & t' & E1 & E2 & G0 & G1 & G2). injection E1 as <-.
          assert (t' = tr) by congruence. subst t'. rewrite Nat.add_0_r.
          intros []; rewrite ?Nat.add_0_r; eexists; split; eauto.
        * simpl in Q. intro w. destruct (H3 j y Q w) as (id & I1' & I2'). exists id. split; auto.
          replace (k + S j) with (k + 1 + j) by lia. exact I1'. }
  intros n. destruct (IT n 0) as (l & H1 & H2 & H3); [lia|]. rewrite <- T0 in H1. exists l, (length l).
  split; [exact H1|]. split; [lia|]. split; auto.
Qed.
End RunS.

(** *** C12 *)
Lemma vertices_bounded (ts : TriangleStore) : exists N, forall t i, In t ts -> get3 (t_points t) i < N.
Proof.
  induction ts as [|t ts [N H]]; [exists 0; intros t i []|].
  exists (S (a0 (t_points t) + a1 (t_points t) + a2 (t_points t) + N)). intros x i [<-|I].
  - destruct i; simpl; lia.
  - specialize (H x i I). lia.
Qed.
(** Flood filling any mesh whose neighbour ids are in range and where nothing is
    marked yet, from any triangle of it, completes (4 * triangles + 2 steps
    suffice), collecting and marking exactly the region of the seed. *)
Theorem C12_flood_fill_total : forall {A : Arith} fuel seed (s : Sweeper), seed < length (s_tris s) ->
  (forall t i, In t (s_tris s) -> match get3 (t_neighbors t) i with Some j => j < length (s_tris s) | None => True end) ->
  (forall t, In t (s_tris s) -> t_interior t = false) -> s_result s = [] -> 4 * length (s_tris s) + 1 < fuel ->
  exists s', clean_mesh fuel (Some seed) s = (Done tt, s') /\
    marked (s_tris s) (s_tris s') (s_result s') /\ NoDup (s_result s') /\
    (forall t, In t (s_result s') <-> exists i, t = Some i /\ region (s_tris s) seed i).
Proof.
  intros A fuel seed s Ls H1 H2 R Lf. destruct (vertices_bounded (s_tris s)) as [N HN].
  assert (S0 : SO N (length (s_tris s)) (s_tris s)).
  { split; auto. apply Forall_forall. intros t I. split; [intro i; apply HN; auto|]. split; auto. intro i. specialize (H1 t i I).
    unfold NB. destruct (get3 (t_neighbors t) i); simpl; auto. }
  pose proof (clean_mesh_wp N _ _ S0 fuel seed s eq_refl R Ls) as W. unfold wp in W.
  destruct (clean_mesh fuel (Some seed) s) as [[[]|p|u|] s']; try (destruct W as (W & _ & ?); discriminate || lia).
  exists s'. destruct W as (W1 & W2 & W3 & W4 & W5 & W6). auto.
Qed.

(** Once the sweep is done only the walk to the seed triangle can fail. *)
Theorem C12_finalize_fails_only_in_walk_partial : forall {A : Arith} dbg ps pts low m fuel (s : Sweeper) r s', RE ps pts low m s ->
  finalize_polygon fuel s = (r, s') -> 4 * m + 1 < fuel ->
  match r with
  | Done _ => True
  | Ub u => allowed dbg low (FUb u)
  | _ => exists e t, nth_error (nodes (s_front s)) 1 = Some e /\ en_tri e = Some t /\
           forall x, find_interior fuel (s_tris s) (en_pid e) (Some t) <> Done x
  end.
Proof.
  intros A dbg ps pts low m fuel s r s' H E Lf. pose proof (finalize_wp dbg ps pts low m fuel s H) as W. unfold wp in W. rewrite E in W.
  destruct H as (H1 & H2 & H3).
  unfold finalize_polygon, bind, get_front, front_nth in E. destruct (nth_error (nodes (s_front s)) 1) as [e|] eqn:E1.
  2:{ unfold skip, ret in E. injection E as <- <-. exact I. }
  simpl in E. destruct (en_tri e) as [t|] eqn:E2.
  2:{ unfold skip, ret in E. injection E as <- <-. exact I. }
  unfold get_tris, lift in E.
  assert (Ve : vt m (en_tri e)). { destruct H2 as [F _]. rewrite Forall_forall in F. apply F. eapply nth_error_In; eauto. }
  rewrite E2 in Ve.
  pose proof (find_interior_okr (length (ps_points ps)) m dbg low (s_tris s) (en_pid e) H1 fuel (Some t) Ve) as K.
  destruct (find_interior fuel (s_tris s) (en_pid e) (Some t)) as [x|p|u|] eqn:Fi.
  - destruct x as [seed|]; cbn [tid_invalid negb] in E.
    2:{ unfold skip, ret in E. injection E as <- <-. exact I. }
    simpl in K. destruct (fan_seed _ _ _ _ K) as (tr & k & T1 & T2 & T3).
    assert (Ls : seed < m). { apply nth_error_lt in T1. destruct H1 as [L0 _]. lia. }
    pose proof (clean_mesh_wp (length (ps_points ps)) m _ H1 fuel seed s eq_refl H3 Ls) as C. unfold wp in C.
    destruct (clean_mesh fuel (Some seed) s) as [[[]|p|u|] s1]; try (destruct C as (C & _ & ?); discriminate || lia).
    injection E as <- <-. exact I.
  - injection E as <- <-. exists e, t. repeat split; auto. congruence.
  - injection E as <- <-. exact K.
  - injection E as <- <-. exists e, t. repeat split; auto. congruence.
Qed.

(** Non-vacuity: the history of PropsBuilder.v (a square with a hole, three
    Steiner points) runs to completion in both build profiles with a non-empty
    result, so C09-C11 and C13 apply to it. *)
Example safe_example_result : (match builder_of nat ex_src ex_calls with
  | Done b => match observed true 200 (build nat b), observed false 200 (build nat b) with
      | (Done t, cbs), (Done t', cbs') => Some (length (tr_result t), length cbs, length (tr_result t'), length (tr_triangles t'))
      | _, _ => None end
  | _ => None end) = Some (13, 78, 13, 17).
Proof. vm_compute. reflexivity. Qed.
Print Assumptions C09_iterator_and_indices.
Print Assumptions C10_result_distinct.
Print Assumptions C11_result_is_region.
Print Assumptions C12_flood_fill_total.
Print Assumptions C12_finalize_fails_only_in_walk_partial.
Print Assumptions C13_unchecked_in_range_partial.
