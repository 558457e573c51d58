(** * Safe: every id stays in range, for any input and any arithmetic

    [RI n s]: in state s every vertex, neighbour and front id is in range,
    the front's cache is in range, no triangle is marked interior, nothing is
    in the result, and the store has at least n triangles.  Every function
    preserves it and fails only in an allowed way (no undefined behaviour
    except at the sites of [allowed]). *)
From Coq Require Import List Arith Bool Lia.
From Verif Require Import Base Num Shape ShapeSpec Utils Points Triangles Front Sweeper Cdt Lists Monad.
Import ListNotations.

Ltac okr_use L := eapply okr_mono; [eapply L| |].
Ltac wp_use L := eapply wp_mono; [eapply L| |].

(** id in range / valid id in range *)
Definition vt (m : nat) (t : option nat) : Prop := match t with Some i => i < m | None => True end.
Definition st (m : nat) (t : option nat) : Prop := match t with Some i => i < m | None => False end.
Lemma st_vt m t : st m t -> vt m t. Proof. destruct t; simpl; tauto. Qed.
Lemma vt_le m m' t : m <= m' -> vt m t -> vt m' t. Proof. destruct t; simpl; auto; lia. Qed.
Lemma st_le m m' t : m <= m' -> st m t -> st m' t. Proof. destruct t; simpl; auto; lia. Qed.
Lemma vt_st m t : vt m t -> tid_invalid t = false -> st m t. Proof. destruct t; simpl; auto; discriminate. Qed.
#[global] Hint Resolve st_vt : core.

(** ** triangles *)
Definition TO (N m : nat) (t : InnerTriangle) : Prop :=
  (forall i, V t i < N) /\ (forall i, vt m (NB t i)) /\ t_interior t = false.
Lemma TO_le N m m' t : m <= m' -> TO N m t -> TO N m' t.
Proof. intros L (H1 & H2 & H3). split; auto. split; auto. intro i. eapply vt_le; eauto. Qed.
Lemma TO_attrs N m t a : TO N m t -> TO N m (with_attrs t a).
Proof. intros (H1 & H2 & H3). repeat split; auto. Qed.
Lemma TO_set_con N m t i b : TO N m t -> TO N m (tri_set_constrained t i b).
Proof. apply TO_attrs. Qed.
Lemma TO_set_del N m t i b : TO N m t -> TO N m (tri_set_delaunay t i b).
Proof. apply TO_attrs. Qed.
Lemma TO_set_nb N m t i n : TO N m t -> vt m n -> TO N m (with_neighbors t (set3 (t_neighbors t) i n)).
Proof.
  intros (H1 & H2 & H3) H. repeat split; auto. intro j. unfold NB in *. simpl. rewrite get3_set3.
  destruct (ix_eq_dec i j); auto.
Qed.
Lemma TO_clear N m t : TO N m t -> TO N m (clear_neighbors t).
Proof. intros (H1 & H2 & H3). repeat split; auto. intros []; exact I. Qed.
Lemma TO_new N m a b c : a < N -> b < N -> c < N -> TO N m (tri_new a b c).
Proof. intros. repeat split; intros []; simpl; auto. Qed.
Lemma TO_con_edge N m t p q : TO N m t -> TO N m (set_constrained_for_edge t p q).
Proof. intro H. unfold set_constrained_for_edge. destruct (edge_index t p q); auto. Qed.
#[global] Hint Resolve TO_set_con TO_set_del TO_set_nb TO_clear TO_new TO_con_edge TO_attrs : core.

Section F.
Variable F : failure -> Prop.
Hypothesis FP : forall p, F (FPanic p).

Lemma by_point_okr {T} t p (v0 v1 v2 : T) (Q : T -> Prop) : Q v0 -> Q v1 -> Q v2 -> okr (by_point t p v0 v1 v2) F Q.
Proof using FP. intros. unfold by_point. destruct (p =? _); simpl; auto. destruct (p =? _); simpl; auto. destruct (p =? _); simpl; auto. Qed.
Lemma point_cw_okr N m t p : TO N m t -> okr (point_cw t p) F (fun q => q < N).
Proof using FP. intros (H & _). apply by_point_okr; [apply (H I2)|apply (H I0)|apply (H I1)]. Qed.
Lemma point_ccw_okr N m t p : TO N m t -> okr (point_ccw t p) F (fun q => q < N).
Proof using FP. intros (H & _). apply by_point_okr; [apply (H I1)|apply (H I2)|apply (H I0)]. Qed.
Lemma opposite_okr N m t o p : TO N m t -> TO N m o -> okr (opposite_point o t p) F (fun q => q < N).
Proof using FP. intros H H'. apply okr_bind. okr_use point_cw_okr; eauto. intros. eapply point_cw_okr; eauto. Qed.
Lemma neighbor_ccw_okr N m t p : TO N m t -> okr (neighbor_ccw t p) F (vt m).
Proof using FP. intros (_ & H & _). apply by_point_okr; [apply (H I2)|apply (H I0)|apply (H I1)]. Qed.
Lemma neighbor_cw_okr N m t p : TO N m t -> okr (neighbor_cw t p) F (vt m).
Proof using FP. intros (_ & H & _). apply by_point_okr; [apply (H I1)|apply (H I2)|apply (H I0)]. Qed.
Lemma neighbor_across_okr N m t p : TO N m t -> okr (neighbor_across t p) F (vt m).
Proof using FP. intros (_ & H & _). unfold neighbor_across. destruct (point_index t p) as [i|]; simpl; auto. apply (H i). Qed.
Lemma edge_attr_okr t p (v0 v1 v2 : EdgeAttr) : okr (by_point t p v0 v1 v2) F (fun _ => True).
Proof using FP. apply by_point_okr; auto. Qed.
Lemma set_edge_attr_cw_okr N m t p v : TO N m t -> okr (set_edge_attr_cw t p v) F (TO N m).
Proof using FP. intro H. apply okr_bind. apply by_point_okr; simpl; auto. Qed.
Lemma set_edge_attr_ccw_okr N m t p v : TO N m t -> okr (set_edge_attr_ccw t p v) F (TO N m).
Proof using FP. intro H. apply okr_bind. apply by_point_okr; simpl; auto. Qed.
Lemma rotate_cw_okr N m t o n : TO N m t -> n < N -> okr (rotate_cw t o n) F (TO N m).
Proof using FP.
  intros (H1 & H2 & H3) H. unfold rotate_cw.
  pose proof (H1 I0). pose proof (H1 I1). pose proof (H1 I2). unfold V in *; simpl in *.
  destruct (o =? _); [|destruct (o =? _); [|destruct (o =? _)]]; simpl; auto;
    repeat split; auto; intros []; unfold V; simpl; auto.
Qed.
Lemma neighbor_index_okr t id : okr (neighbor_index t id) F (fun _ => True).
Proof using FP. unfold neighbor_index. repeat destruct (tid_eqb _ _); simpl; auto. Qed.
Lemma mark_two_okr dbg N m l r lt rt : TO N m lt -> TO N m rt -> vt m l -> vt m r ->
  okr (mark_neighbor_for_two_mut dbg l r lt rt) F (fun x => TO N m (fst x) /\ TO N m (snd x)).
Proof using FP.
  intros. unfold mark_neighbor_for_two_mut. destruct (common_edge_index lt rt) as [[i j]|]; [|destruct dbg; simpl; auto].
  simpl. split; repeat (apply TO_set_del || apply TO_set_con || apply TO_set_nb); auto.
Qed.

(** ** the store *)
Definition SO (N m : nat) (ts : TriangleStore) : Prop := length ts = m /\ Forall (TO N m) ts.
Lemma SO_nth N m ts i t : SO N m ts -> nth_error ts i = Some t -> TO N m t.
Proof using. intros [_ H] E. rewrite Forall_forall in H. apply H. eapply nth_error_In; eauto. Qed.
Lemma SO_put N m ts id t : SO N m ts -> TO N m t -> SO N m (ts_put ts id t).
Proof using.
  intros [L H] T. destruct id; simpl; [|split; auto]. split; [rewrite list_set_length; auto|].
  rewrite Forall_forall in *. intros x I. apply In_list_set in I as [->|I]; auto.
Qed.
Lemma get_unchecked_okr {T} s (l : list T) i (Q : T -> Prop) : i < length l -> (forall x, nth_error l i = Some x -> Q x) ->
  okr (get_unchecked s l i) F Q.
Proof using. intros. apply okr_get; auto. Qed.
Lemma ts_get_okr dbg N m s ts id : SO N m ts -> st m id -> okr (ts_get_unchecked_at dbg s ts id) F (TO N m).
Proof using.
  intros H I. destruct id as [i|]; [|destruct I]. simpl in *. apply okr_get; [destruct H; lia|].
  intros; eapply SO_nth; eauto.
Qed.
Lemma ts_get_mut_okr N m ts id : SO N m ts -> st m id -> okr (ts_get_mut_unchecked ts id) F (TO N m).
Proof using.
  intros H I. destruct id as [i|]; [|destruct I]. simpl in *. apply okr_get; [destruct H; lia|].
  intros; eapply SO_nth; eauto.
Qed.
Lemma two_ok_st N m ts a b : SO N m ts -> get_mut_two_ok ts a b = true -> st m a /\ st m b.
Proof using.
  intros [L _]. destruct a, b; simpl; try discriminate.
  rewrite !andb_true_iff, !Nat.ltb_lt. lia.
Qed.
Lemma mark_cells_okr dbg N m s ts l r : SO N m ts -> st m l -> st m r ->
  okr (mark_neighbor_cells dbg s ts l r) F (SO N m).
Proof using FP.
  intros H L R. unfold mark_neighbor_cells. apply okr_bind. okr_use ts_get_okr; eauto. intros lt Hl.
  apply okr_bind. okr_use ts_get_okr; eauto. intros rt Hr.
  apply okr_bind. okr_use (mark_two_okr dbg N m); eauto. intros [a b] [Ha Hb]. simpl in *.
  apply SO_put; auto. apply SO_put; auto.
Qed.
Lemma mark_neighbor_okr dbg N m ts l r : SO N m ts -> okr (mark_neighbor dbg ts l r) F (SO N m).
Proof using FP.
  intro H. unfold mark_neighbor. apply okr_bind. apply okr_assert; auto. intro E.
  apply (two_ok_st N m) in E as [? ?]; auto. apply mark_cells_okr; auto.
Qed.
Lemma SO_insert N m ts t : SO N m ts -> TO N (S m) t -> SO N (S m) (ts ++ [t]).
Proof using.
  intros [L H] T. split; [rewrite app_length; simpl; lia|]. apply Forall_app. split; auto.
  eapply Forall_impl; [|exact H]. intros x. apply TO_le. lia.
Qed.
Lemma six_okr N m ts a b c d e f : SO N m ts -> F (FUb U_alias) -> vt m c -> vt m d -> vt m e -> vt m f ->
  okr (get_mut_six_ok ts a b c d e f) F (fun _ => get_mut_two_ok ts a b = true).
Proof using FP.
  intros [L _] FA C D E G. unfold get_mut_six_ok. apply okr_bind. apply okr_assert; auto. intro T.
  assert (X : forallb (fun i => i <? length ts) (some_ids [c; d; e; f]) = true).
  { apply forallb_forall. intros x I. apply Nat.ltb_lt. rewrite L.
    destruct c, d, e, f; simpl in *; intuition (subst; auto). }
  rewrite X. destruct (nodupb _); simpl; auto.
Qed.
End F.

(** ** the front *)
Section Front.
Context {A : Arith}.
Variable F : failure -> Prop.
Hypothesis FP : forall p, F (FPanic p).
Variables N m : nat.
(** what is known of the key of the front's first node *)
Variable K : Point -> Prop.
Definition EO (e : Entry) : Prop := en_pid e < N /\ vt m (en_tri e).
Definition FO (af : AdvancingFront) : Prop :=
  Forall EO (nodes af) /\ (forall p i, access_cache af = Some (p, i) -> i < length (nodes af)) /\
  exists e, nth_error (nodes af) 0 = Some e /\ K (en_key e).
Definition NV (af : AdvancingFront) (n : NodeRef) : Prop :=
  exists e, nth_error (nodes af) (nr_index n) = Some e /\ n = to_node e (nr_index n).
Definition fr (l : nat) (f : found) : Prop := match f with FOk i => i < l | FErr i => i <= l end.

Lemma bsearch_loop_range : forall fuel l key a b, b <= length l -> a <= b ->
  match bsearch_loop fuel l key a b with FOk i => i < length l | FErr i => i <= length l end.
Proof using.
  induction fuel as [|f IH]; intros l key a b Hb Hab; cbn [bsearch_loop]; cbv zeta; [lia|].
  destruct (a <? b) eqn:E; [|lia]. apply Nat.ltb_lt in E.
  assert (M : a + (b - a) / 2 < b). { pose proof (Nat.div_lt (b - a) 2 ltac:(lia) ltac:(lia)). lia. }
  destruct (nth_error l (a + (b - a) / 2)) eqn:X; [|lia].
  destruct (key_cmp _ _).
  - apply nth_error_lt in X; auto.
  - apply IH; lia.
  - apply IH; lia.
Qed.
Lemma bsearch_range l key : fr (length l) (bsearch l key).
Proof using. unfold bsearch. pose proof (bsearch_loop_range (S (length l)) l key 0 (length l)) as H. unfold fr. destruct (bsearch_loop _ _ _ _ _); apply H; lia. Qed.
(** a key goes before the first node only if that node is greater *)
Lemma bsearch_loop_zero : forall fuel l key b, b <= length l -> b < fuel ->
  bsearch_loop fuel l key 0 b = FErr 0 -> b = 0 \/ exists e, nth_error l 0 = Some e /\ key_cmp (en_key e) key = Gt.
Proof using.
  induction fuel as [|f IH]; intros l key b Hb Hf; [lia|]. cbn [bsearch_loop]. cbv zeta.
  destruct (0 <? b) eqn:E; [|apply Nat.ltb_ge in E; left; lia]. apply Nat.ltb_lt in E.
  assert (M : (b - 0) / 2 < b). { pose proof (Nat.div_lt (b - 0) 2 ltac:(lia) ltac:(lia)). lia. }
  destruct (nth_error l (0 + (b - 0) / 2)) as [e|] eqn:X.
  2:{ apply nth_error_None in X. lia. }
  destruct (key_cmp (en_key e) key) eqn:C; [discriminate| |].
  - intro R. exfalso. assert (G : forall fuel l key a c, a <= c -> match bsearch_loop fuel l key a c with FOk i => True | FErr i => a <= i end).
    { clear. induction fuel as [|f IH]; intros l key a c L; cbn [bsearch_loop]; cbv zeta; [lia|].
      destruct (a <? c) eqn:E; [|lia]. apply Nat.ltb_lt in E.
      assert (M : a + (c - a) / 2 < c). { pose proof (Nat.div_lt (c - a) 2 ltac:(lia) ltac:(lia)). lia. }
      destruct (nth_error l (a + (c - a) / 2)) as [e|]; [|lia]. destruct (key_cmp (en_key e) key); [exact I| |].
      - specialize (IH l key (a + (c - a) / 2 + 1) c ltac:(lia)). destruct (bsearch_loop f l key _ c); lia.
      - specialize (IH l key a (a + (c - a) / 2) ltac:(lia)). destruct (bsearch_loop f l key a _); lia. }
    specialize (G f l key (0 + (b - 0) / 2 + 1) b ltac:(lia)). rewrite R in G. lia.
  - intro R. right. destruct (IH l key (0 + (b - 0) / 2) ltac:(lia) ltac:(lia) R) as [Z|Z]; auto.
    rewrite Z in X. eauto.
Qed.
Lemma bsearch_zero l key e : nth_error l 0 = Some e -> bsearch l key = FErr 0 -> key_cmp (en_key e) key = Gt.
Proof using.
  intros E H. unfold bsearch in H. apply bsearch_loop_zero in H; auto. destruct H as [H|(e' & E' & H)].
  - apply nth_error_lt in E. lia.
  - congruence.
Qed.
Lemma search_cache_okr af key : (forall p i, access_cache af = Some (p, i) -> i < length (nodes af)) ->
  okr (search_by_key_with_cache af key) F (fr (length (nodes af))).
Proof using FP.
  intro C. unfold search_by_key_with_cache. destruct (access_cache af) as [[p i]|] eqn:E; [|simpl; apply bsearch_range].
  specialize (C p i eq_refl).
  destruct (key_cmp p key).
  - exact C.
  - destruct (Nat.ltb_spec i (length (nodes af))); [|lia].
    apply okr_bind, okr_unwrap; auto. intros e He. apply nth_error_lt in He.
    assert (G : okr (let! _ := rassert P_front_index (i <=? length (nodes af)) in
                     Done (found_add (bsearch (skipn i (nodes af)) key) i)) F (fr (length (nodes af)))).
    { apply okr_bind. apply okr_assert; auto. intros _. simpl.
      pose proof (bsearch_range (skipn i (nodes af)) key) as R. rewrite skipn_length in R.
      destruct (bsearch _ _); simpl in *; lia. }
    destruct (key_cmp _ _); try exact G. simpl. lia.
  - apply okr_bind, okr_unwrap; auto. intros e He. destruct i as [|j]; [discriminate|]. 
    destruct (key_cmp _ _); simpl; try lia.
    apply okr_bind. apply okr_assert; auto. intros _. simpl.
    change (match nodes af with [] => [] | a :: l => a :: firstn j l end) with (firstn (S j) (nodes af)).
    pose proof (bsearch_range (firstn (S j) (nodes af)) key) as R. rewrite firstn_length in R.
    destruct (bsearch _ _); unfold fr in *; lia.
Qed.
Lemma to_node_NV af i e : nth_error (nodes af) i = Some e -> NV af (to_node e i).
Proof using. intro H. exists e. simpl. auto. Qed.
Lemma NV_index af n : NV af n -> nr_index n < length (nodes af).
Proof using. intros (e & H & _). apply nth_error_lt in H. auto. Qed.
Lemma NV_ok af n : FO af -> NV af n -> nr_pid n < N /\ vt m (nr_tri n).
Proof using.
  intros [H _] (e & E & ->). rewrite Forall_forall in H. apply H. eapply nth_error_In; eauto.
Qed.
Definition oNV af (o : option NodeRef) : Prop := forall n, o = Some n -> NV af n.
Lemma node_at_okr af i s : i < length (nodes af) ->
  okr (let! e := get_unchecked s (nodes af) i in Done (Some (to_node e i))) F (oNV af).
Proof using. intro H. apply okr_bind. apply okr_get; auto. intros e E. simpl. intros n Q. injection Q as <-. apply to_node_NV; auto. Qed.
Lemma get_node_okr af p : FO af -> okr (get_node af p) F (oNV af).
Proof using FP.
  intros (_ & C & _). apply okr_bind. okr_use search_cache_okr; auto. intros [i|i] R; simpl in R.
  - apply node_at_okr; auto.
  - intros n Q; discriminate.
Qed.
Lemma get_node_cache_okr af p : FO af -> okr (get_node_with_cache af p) F (fun x => oNV (snd x) (fst x) /\ FO (snd x)).
Proof using FP.
  intros (H & C & K0). apply okr_bind. okr_use search_cache_okr; auto. intros [i|i] R; simpl in R.
  - apply okr_bind. apply okr_get; auto. simpl. intros e E. split.
    + intros n Q. injection Q as <-. apply to_node_NV; auto.
    + split; [|split]; simpl; auto. intros ? ? Q. injection Q as <- <-. auto.
  - simpl. split; [intros n Q; discriminate|split; [|split]; auto].
Qed.
Lemma resolve_range af id : fr (length (nodes af)) (resolve_index_for_id af id).
Proof using.
  unfold resolve_index_for_id. destruct (nth_error _ _) eqn:E; [|apply bsearch_range].
  destruct (_ =? _); [|apply bsearch_range]. simpl. apply nth_error_lt in E; auto.
Qed.
Lemma get_node_id_okr af id : okr (get_node_with_id af id) F (oNV af).
Proof using.
  unfold get_node_with_id. pose proof (resolve_range af id) as R. destruct (resolve_index_for_id af id); simpl in R.
  - apply node_at_okr; auto.
  - intros n Q; discriminate.
Qed.
Lemma locate_next_okr af id : okr (locate_next_node af id) F (oNV af).
Proof using.
  unfold locate_next_node. set (i := match resolve_index_for_id af id with FOk i => i + 1 | FErr i => i end).
  destruct (Nat.ltb_spec i (length (nodes af))); [apply node_at_okr; auto|intros n Q; discriminate].
Qed.
Lemma locate_prev_okr af id : okr (locate_prev_node af id) F (oNV af).
Proof using.
  unfold locate_prev_node. pose proof (resolve_range af id) as R.
  destruct (resolve_index_for_id af id) as [[|i]|[|i]]; simpl in R; try (intros n Q; discriminate); apply node_at_okr; lia.
Qed.
Lemma next_NV af n : oNV af (next_node af n).
Proof using.
  unfold next_node. intros x. destruct (_ <? _); [|discriminate]. destruct (nth_error _ _) eqn:E; [|discriminate].
  intro Q; injection Q as <-. apply to_node_NV; auto.
Qed.
Lemma prev_okr af n : NV af n -> okr (prev_node af n) F (oNV af).
Proof using.
  intro H. apply NV_index in H. unfold prev_node. destruct (nr_index n); [intros x Q; discriminate|]. apply node_at_okr; lia.
Qed.
Lemma prev_pos_okr af n : NV af n -> okr (prev_node af n) F (fun o => oNV af o /\ (o <> None -> 0 < nr_index n)).
Proof using.
  intro H. apply NV_index in H. unfold prev_node. destruct (nr_index n); [split; [intros x Q; discriminate|congruence]|].
  okr_use node_at_okr; [lia|auto|]. intros o Ho. split; [exact Ho|lia].
Qed.
Lemma FO_set_tri af i e t : FO af -> nth_error (nodes af) i = Some e -> vt m t ->
  FO (mkFront (list_set (nodes af) i (set_tri e t)) (access_cache af)).
Proof using.
  intros (H & C & e0 & E0 & K0) E T. split; [|split]; simpl; [|intros; rewrite list_set_length; eauto|].
  2:{ destruct i as [|i].
      - exists (set_tri e t). destruct (nodes af); [discriminate|]. injection E0 as ->. injection E as ->. split; auto.
      - exists e0. destruct (nodes af); [discriminate|]. split; auto. }
  rewrite Forall_forall in *. intros x I. apply In_list_set in I as [->|I]; auto.
  split; auto. simpl. apply H. eapply nth_error_In; eauto.
Qed.
Lemma update_triangle_okr af p t : FO af -> vt m t -> okr (update_triangle af p t) F FO.
Proof using FP.
  intros H T. apply okr_bind. okr_use search_cache_okr; [apply H|auto|]. intros [i|i] R; simpl; auto.
  apply okr_bind, okr_unwrap; auto. intros e E. simpl. apply FO_set_tri; auto.
Qed.
Lemma front_insert_okr dbg af p_id p t : FO af -> p_id < N -> vt m t -> (forall k, K k -> key_cmp k p = Gt -> K p) -> okr (front_insert dbg af p_id p t) F FO.
Proof using FP.
  intros (H & C & e0 & E0 & K0) P T KP. unfold front_insert. apply okr_bind.
  assert (G : okr (match search_by_key af p with
    | FOk idx => let! e := unwrap P_front_index (nth_error (nodes af) idx) in
        Done (mkFront (list_set (nodes af) idx (mkEntry (en_key e) p_id t)) (Some (p, idx)))
    | FErr idx => Done (mkFront (list_insert (nodes af) idx (mkEntry p p_id t)) (Some (p, idx))) end) F FO).
  { pose proof (bsearch_range (nodes af) p) as R. unfold search_by_key. destruct (bsearch _ _) eqn:B0; simpl in R.
    - apply okr_bind, okr_unwrap; auto. intros e E. simpl. split; [|split]; simpl.
      + rewrite Forall_forall in *. intros x I. apply In_list_set in I as [->|I]; auto. split; auto.
      + intros ? ? Q. injection Q as <- <-. rewrite list_set_length; auto.
      + destruct i as [|i].
        * exists (mkEntry (en_key e) p_id t). destruct (nodes af); [discriminate|]. injection E0 as ->. injection E as ->. split; auto.
        * exists e0. destruct (nodes af); [discriminate|]. split; auto.
    - simpl. split; [|split]; simpl.
      + rewrite Forall_forall in *. intros x I. apply In_list_insert in I as [->|I]; auto. split; auto.
      + intros ? ? Q. injection Q as <- <-. rewrite list_insert_length. lia.
      + destruct i as [|i].
        * exists (mkEntry p p_id t). split; [destruct (nodes af); reflexivity|]. simpl. eapply KP; [exact K0|].
          eapply bsearch_zero; eauto.
        * exists e0. destruct (nodes af); [discriminate|]. split; auto. }
  destruct dbg; [apply okr_assert; auto|exact G].
Qed.
Lemma update_delete_okr dbg af u p_id t d : FO af -> vt m t -> 0 < d -> okr (update_and_delete_by_index dbg af u p_id t d) F FO.
Proof using FP.
  intros (H & C & e0 & E0 & K0) T D. unfold update_and_delete_by_index. apply okr_bind.
  assert (G : okr (let! e := unwrap P_front_update_unwrap (nth_error (nodes af) u) in
    let! _ := if dbg then rassert P_front_dbg (en_pid e =? p_id) else Done tt in
    let ns := list_set (nodes af) u (set_tri e t) in
    let! _ := rassert P_front_remove (d <? length ns) in
    Done (mkFront (list_remove ns d) None)) F FO).
  { apply okr_bind, okr_unwrap; auto. intros e E. apply okr_bind.
    assert (G : okr (let ns := list_set (nodes af) u (set_tri e t) in
      let! _ := rassert P_front_remove (d <? length ns) in Done (mkFront (list_remove ns d) None)) F FO).
    { cbv zeta. apply okr_bind, okr_assert; auto. intro L. simpl. split; [|split; [simpl; discriminate|]].
      2:{ destruct d as [|d]; [lia|]. destruct (nodes af) as [|n0 l]; [discriminate|]. injection E0 as ->. simpl.
          destruct u as [|u]; simpl; [exists (set_tri e t)|exists e0]; split; auto. injection E as ->. exact K0. }
      rewrite Forall_forall in *. intros x I. apply In_list_remove in I. apply In_list_set in I as [->|I]; auto.
      split; auto. simpl. apply H. eapply nth_error_In; eauto. }
    destruct dbg; [apply okr_assert; auto|exact G]. }
  destruct dbg; [apply okr_assert; auto|exact G].
Qed.
Lemma locate_node_okr dbg af p : FO af -> (dbg = false -> (exists k, K k /\ key_cmp k p = Gt) -> F (FUb U_front)) -> okr (locate_node dbg af p) F (NV af).
Proof using FP.
  intros (_ & _ & e0 & E0 & K0) U. unfold locate_node. apply okr_bind. pose proof (bsearch_range (nodes af) p) as R. unfold search_by_key.
  destruct (bsearch _ _) as [i|[|j]] eqn:B0; simpl in R.
  - simpl. apply okr_bind, okr_get; auto. intros e E. simpl. apply to_node_NV; auto.
  - destruct dbg; simpl; auto. apply U; auto. exists (en_key e0). split; auto. eapply bsearch_zero; eauto.
  - simpl. apply okr_bind, okr_get; auto. intros e E. simpl. apply to_node_NV; auto.
Qed.
End Front.
