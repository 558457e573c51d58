(** * FrontInv: the advancing front through a whole run *)
From Coq Require Import List Arith Bool Lia ZArith.
From Verif Require Import Base Num Shape ShapeSpec Utils Points Triangles Front Sweeper Cdt Lists Monad Traverse Exact FrontSpec Setup Boundary Chain.
Import ListNotations.

(** the callbacks made outside legalizations *)
Definition outer (e : event) : bool :=
  match e with
  | EvWillLegalize _ | EvLegalizeStep _ | EvRotated _ _ | EvLegalized _ => false
  | _ => true
  end.
Definition is_exit (e : event) : bool := match e with EvExitPoint _ => true | _ => false end.

Section S.
Context {A : Arith} {E : Exact A}.
Variable dbg : bool.
Variable points : Points.
Hypothesis PP : proper points.
Notation N := (npts points).
Notation zc := (zc points).

(** number of exit_point_event callbacks *)
Definition exits (l : list callback) : nat := length (filter (fun cb => is_exit (cb_event cb)) l).

(** what is claimed of the callbacks made so far (newest first) *)
Fixpoint claims (l : list callback) : Prop :=
  match l with
  | [] => True
  | cb :: l' =>
      front_ok points (cb_front cb) /\
      (outer (cb_event cb) = true -> length (cb_tris cb) + length (nodes (cb_front cb)) = 2 * (1 + exits l) + 2) /\
      claims l'
  end.

Definition J (s : Sweeper) : Prop := claims (s_trace s).

Section Inv.
(** points inserted so far, exit callbacks so far *)
Variable D : list nat.
Variable x : nat.
Definition within (ns : list Entry) : Prop :=
  forall i e, nth_error ns i = Some e -> In (en_pid e) D \/ en_pid e = ps_head points \/ en_pid e = ps_tail points.
Definition FIs (af : AdvancingFront) (f : nat) : Prop := front_ok points af /\ within (nodes af) /\ length (nodes af) = f.
Definition In_ (n f : nat) (s : Sweeper) : Prop :=
  length (s_tris s) = n /\ FIs (s_front s) f /\ exits (s_trace s) = x /\ J s.
Definition Ik (k : nat) (s : Sweeper) : Prop := exists n f, n + f = k /\ In_ n f s.

Lemma In_J n f s : In_ n f s -> J s. Proof using. intros H; apply H. Qed.
Lemma Ik_J k s : Ik k s -> J s. Proof using. intros (n & f & _ & H). eapply In_J; eauto. Qed.

Section Exact.
Variables n f : nat.
Notation I := (In_ n f).
Lemma g_tris {T} (k : TriangleStore -> M T) : (forall ts, length ts = n -> pres I J (k ts)) -> pres I J (bind get_tris k).
Proof using. intros H s Hs. apply wp_bind, wp_get_tris. apply H; auto. apply Hs. Qed.
Lemma g_front {T} (k : AdvancingFront -> M T) : (forall af, FIs af f -> pres I J (k af)) -> pres I J (bind get_front k).
Proof using. intros H s Hs. apply wp_bind, wp_get_front. apply H; auto. apply Hs. Qed.
Lemma g_lift {T U} (r : res T) (k : T -> M U) : (forall y, r = Done y -> pres I J (k y)) -> pres I J (bind (lift r) k).
Proof using.
  intros H s Hs. apply wp_bind, wp_lift. destruct r as [y| | |]; simpl; try (eapply In_J; eauto). apply H; auto.
Qed.
Lemma g_put_tris ts : length ts = n -> pres I J (put_tris ts).
Proof using. intros H s (H1 & H2 & H3 & H4). apply wp_put_tris. split; [|split; [|split]]; auto. Qed.
Lemma g_put_front af : FIs af f -> pres I J (put_front af).
Proof using. intros H s (H1 & H2 & H3 & H4). apply wp_put_front. split; [|split; [|split]]; auto. Qed.
Lemma g_emit e : outer e = false -> pres I J (emit e).
Proof using.
  intros H s (H1 & H2 & H3 & H4). apply wp_emit. split; [|split; [|split]]; auto.
  - cbn [s_trace]. unfold exits. cbn [filter cb_event]. destruct e; try discriminate; simpl; exact H3.
  - unfold J. cbn [s_trace claims cb_event cb_front cb_tris]. split; [apply H2|]. split; [congruence|exact H4].
Qed.
Lemma g_IJ : forall s, I s -> J s. Proof using. apply In_J. Qed.

Lemma update_FI af id p t af' : FIs af f -> nth_error (ps_points points) id = Some p -> t <> None ->
  update_triangle af p t = Done af' -> FIs af' f.
Proof using PP.
  intros (FO & W & L) Hp Ht H. unfold update_triangle in H.
  destruct (search_by_key_with_cache af p) as [[i|i]| | |] eqn:Q; try discriminate. cbn [rbind unwrap] in H.
  destruct (nth_error (nodes af) i) as [e|] eqn:Hi; [|discriminate]. cbn [unwrap rbind] in H. injection H as <-.
  split; [split|split]; cbn [nodes].
  - apply set_tri_chain; auto. apply FO.
  - eapply set_tri_cache; eauto. apply FO.
  - intros j e' Hj. rewrite nth_error_list_set in Hj. destruct (Nat.eqb_spec i j) as [<-|].
    + rewrite (proj2 (Nat.ltb_lt _ _) (nth_error_lt _ _ _ Hi)) in Hj. injection Hj as <-. apply (W i e Hi).
    + apply (W j e' Hj).
  - rewrite list_set_length. auto.
Qed.

Lemma pt_nth id p : pt points id = Done p -> nth_error (ps_points points) id = Some p.
Proof using. unfold pt, get_point_uncheck, get_unchecked. destruct (nth_error _ id); congruence. Qed.

Lemma map_nodes_pres : forall l t a, pres I J (map_nodes_loop points l t (Some a)).
Proof using PP.
  induction l as [|i l IH]; intros t a; cbn [map_nodes_loop]; [apply (pres_skip _ _ g_IJ)|].
  apply (pres_bind _ _ g_IJ); [|intros; apply IH].
  destruct (tid_invalid _); [|apply (pres_skip _ _ g_IJ)].
  apply g_lift. intros cw _. apply g_lift. intros p Hp. apply g_front. intros af FA.
  apply g_lift. intros af' Hu. apply g_put_front. apply pt_nth in Hp. eapply update_FI; eauto. discriminate.
Qed.
Lemma map_triangle_pres t : pres I J (map_triangle_to_nodes dbg points t).
Proof using PP.
  unfold map_triangle_to_nodes. apply g_tris. intros ts _. apply g_lift. intros tr Q.
  destruct t as [a|]; [apply map_nodes_pres|]. simpl in Q. destruct dbg; discriminate.
Qed.

Lemma ts_put_length ts t tr : length (ts_put ts t tr) = length ts.
Proof using. destruct t; simpl; auto. apply list_set_length. Qed.
Lemma cells_length u ts l r ts' : mark_neighbor_cells dbg u ts l r = Done ts' -> length ts' = length ts.
Proof using.
  unfold mark_neighbor_cells. intro H.
  destruct (ts_get_unchecked_at dbg u ts l); try discriminate. cbn [rbind] in H.
  destruct (ts_get_unchecked_at dbg u ts r); try discriminate. cbn [rbind] in H.
  destruct (mark_neighbor_for_two_mut _ _ _ _ _) as [[t1 t2]| | |]; try discriminate. cbn [rbind] in H. injection H as <-.
  rewrite !ts_put_length. auto.
Qed.
Lemma mark_length ts l r ts' : mark_neighbor dbg ts l r = Done ts' -> length ts' = length ts.
Proof using.
  unfold mark_neighbor. intro H. destruct (rassert _ _); try discriminate. cbn [rbind] in H. eapply cells_length; eauto.
Qed.
Lemma rotate_pres t p ot op : pres I J (rotate_triangle_pair dbg t p ot op).
Proof using.
  unfold rotate_triangle_pair. apply g_tris. intros ts L.
  do 17 (apply g_lift; intros ? _). cbv zeta. apply g_lift. intros [t1 t2] _. apply g_lift. intros ? _.
  assert (X : forall ts a b ts', length ts = n ->
    (if tid_invalid b then Done ts else mark_neighbor_cells dbg U_triangle_raw ts a b) = Done ts' -> length ts' = n).
  { intros ts0 a b ts' L0 H. destruct (tid_invalid b); [congruence|]. apply cells_length in H. congruence. }
  do 4 (apply g_lift; intros ? ?Q).
  apply X in Q; [|rewrite !ts_put_length; auto]. apply X in Q0; auto. apply X in Q1; auto. apply X in Q2; auto.
  apply (pres_bind _ _ g_IJ); [apply g_put_tris; auto|]. intros _. apply (pres_ret _ _ g_IJ).
Qed.
Lemma set_delaunay_pres t ot : pres I J (set_delaunay_pair t ot).
Proof using.
  unfold set_delaunay_pair. apply g_tris. intros ts L. do 3 (apply g_lift; intros ? _). apply g_lift. intros [i j] _.
  apply g_put_tris. rewrite !ts_put_length. auto.
Qed.
Lemma legalize_edges_pres : forall l t, pres I J (legalize_edges dbg points l t).
Proof using.
  induction l as [|i l IH]; intro t; cbn [legalize_edges]; [apply (pres_ret _ _ g_IJ)|].
  apply g_tris. intros ts L. apply g_lift. intros tr _. destruct (_ || _); auto. cbv zeta. destruct (tid_invalid _); auto.
  do 8 (apply g_lift; intros ? _). destruct (in_circle _ _ _ _); auto.
  apply (pres_bind _ _ g_IJ); [apply g_emit; auto|]. intros _.
  apply (pres_bind _ _ g_IJ); [apply rotate_pres|]. intros need.
  apply (pres_bind _ _ g_IJ); [apply set_delaunay_pres|]. intros _. apply (pres_ret _ _ g_IJ).
Qed.
Lemma legalize_loop_pres : forall fuel q r, pres I J (legalize_loop dbg points fuel q r).
Proof using.
  induction fuel as [|fu IH]; intros q r; cbn [legalize_loop]; [apply (pres_fuel _ _ g_IJ)|].
  destruct q as [|t q]; [apply (pres_ret _ _ g_IJ)|].
  apply (pres_bind _ _ g_IJ); [apply legalize_edges_pres|]. intros o.
  apply (pres_bind _ _ g_IJ); [apply g_emit; auto|]. intros _. destruct o as [[ot need]|]; apply IH.
Qed.
Lemma map_triangles_pres : forall l, pres I J (map_triangles dbg points l).
Proof using PP.
  induction l as [|t l IH]; cbn [map_triangles]; [apply (pres_skip _ _ g_IJ)|].
  apply (pres_bind _ _ g_IJ); [apply map_triangle_pres|]. intros _. auto.
Qed.
Lemma legalize_pres_n fuel t : pres I J (legalize dbg points fuel t).
Proof using PP.
  unfold legalize. apply (pres_bind _ _ g_IJ); [apply g_emit; auto|]. intros _.
  apply (pres_bind _ _ g_IJ); [apply legalize_loop_pres|]. intros l.
  apply (pres_bind _ _ g_IJ); [apply map_triangles_pres|]. intros _. apply g_emit; auto.
Qed.
Lemma try_mark_pres_n p q t : pres I J (try_mark_edge_for_triangle p q t).
Proof using.
  unfold try_mark_edge_for_triangle. apply g_tris. intros ts L. apply g_lift. intros tr _.
  destruct (edge_index tr p q); [|apply (pres_ret _ _ g_IJ)]. cbv zeta.
  apply (pres_bind _ _ g_IJ); [apply g_put_tris; rewrite ts_put_length; auto|]. intros _.
  destruct (tid_invalid _); [apply (pres_ret _ _ g_IJ)|].
  do 2 (apply g_lift; intros ? _).
  apply (pres_bind _ _ g_IJ); [apply g_put_tris; rewrite !ts_put_length; auto|]. intros _. apply (pres_ret _ _ g_IJ).
Qed.
Lemma mark_collinear_pres_n t i : pres I J (mark_collinear t i).
Proof using.
  unfold mark_collinear. apply g_tris. intros ts L. apply g_lift. intros tr _. cbv zeta.
  apply (pres_bind _ _ g_IJ); [apply g_put_tris; rewrite ts_put_length; auto|]. intros _. apply (pres_ret _ _ g_IJ).
Qed.
Lemma mark_flipped_pres_n t ot p q : pres I J (mark_flipped t ot p q).
Proof using.
  unfold mark_flipped. apply g_tris. intros ts L. apply g_lift. intros tr _. cbv zeta. apply g_lift. intros otr _.
  apply g_put_tris. rewrite !ts_put_length. auto.
Qed.
Lemma flip_pair_pres_n t p ot op : pres I J (flip_pair dbg points t p ot op).
Proof using PP.
  unfold flip_pair. apply (pres_bind _ _ g_IJ); [apply rotate_pres|]. intros need. destruct need; [|apply (pres_skip _ _ g_IJ)].
  apply (pres_bind _ _ g_IJ); [apply map_triangle_pres|]. intros _. apply map_triangle_pres.
Qed.
Lemma node_with_cache_pres_n id q : nth_error (ps_points points) id = Some q -> pres I J (node_with_cache q).
Proof using PP.
  intro Hq. unfold node_with_cache. apply g_front. intros af FA. apply g_lift. intros [o af'] Q.
  assert (FA' : FIs af' f).
  { unfold get_node_with_cache in Q. destruct FA as (FO & W & L).
    destruct (search_ok_cache points PP af id q FO Hq) as (r & Er & SO). rewrite Er in Q. cbn [rbind] in Q.
    destruct r as [i|i]; [|injection Q as <- <-; split; auto].
    unfold get_unchecked in Q. cbn [nodes] in Q. destruct SO as (e & Ei & Ek). rewrite Ei in Q. cbn [rbind] in Q. injection Q as <- <-.
    split; [split|split]; cbn [nodes]; auto; [apply FO|].
    destruct (pt_finp points PP id q Hq) as [Fq _].
    unfold cache_ok. cbn [access_cache nodes]. split; auto. exists e. auto. }
  apply (pres_bind _ _ g_IJ); [apply g_put_front; auto|]. intros _. apply g_lift. intros node _. apply (pres_ret _ _ g_IJ).
Qed.
End Exact.

Lemma up {T} k (m : M T) : (forall n f, pres (In_ n f) J m) -> pres (Ik k) J m.
Proof using.
  intros H s (n & f & Ek & Hs). eapply wp_mono; [apply (H n f s Hs)|auto|]. intros y s' Hs'. exists n, f. auto.
Qed.

Lemma Ik_lift {T U} k (r : res T) (m : T -> M U) s (Q : U -> Sweeper -> Prop) : Ik k s ->
  (forall y, r = Done y -> wp (m y) s (fun _ => J) Q) -> wp (bind (lift r) m) s (fun _ => J) Q.
Proof using.
  intros Hs H. apply wp_bind, wp_lift. destruct r; simpl; try (eapply Ik_J; eauto). apply H; auto.
Qed.

Lemma fill_one_pres k fuel id : pres (Ik k) J (fill_one dbg points fuel id).
Proof using PP.
  intros s Hs. pose proof Hs as (n & f & Ek & (L & (FO & W & Lf) & X & HJ)). unfold fill_one.
  apply wp_bind, wp_get_front. apply (Ik_lift k); auto. intros o Ho. apply (Ik_lift k); auto. intros node Hn.
  apply (Ik_lift k); auto. intros op Hp.
  destruct op as [prev|]; [|apply wp_ret; exact Hs].
  destruct (next_node (s_front s) node) as [next|] eqn:Hx; [|apply wp_ret; exact Hs].
  cbv zeta. apply wp_bind, wp_get_tris. cbn [ts_insert].
  apply (Ik_lift k); auto. intros pt_ _. apply (Ik_lift k); auto. intros ts1 H1.
  apply (Ik_lift k); auto. intros nt_ _. apply (Ik_lift k); auto. intros ts2 H2.
  apply mark_length in H1, H2.
  (* the node *)
  assert (Gn : nth_error (nodes (s_front s)) (nr_index node) = Some (mkEntry (nr_point node) (nr_pid node) (nr_tri node))).
  { destruct o as [nd|]; [|discriminate]. injection Hn as ->. unfold get_node_with_id in Ho.
    destruct (resolve_index_for_id (s_front s) id) as [i|i]; [|discriminate]. unfold get_unchecked in Ho.
    destruct (nth_error (nodes (s_front s)) i) as [e|] eqn:Ei; [|discriminate]. cbn [rbind] in Ho. injection Ho as <-.
    cbn [to_node nr_index nr_point nr_pid nr_tri]. rewrite Ei. destruct e; reflexivity. }
  assert (Gp : nr_index node = S (nr_index prev) /\ nth_error (nodes (s_front s)) (nr_index prev) = Some (mkEntry (nr_point prev) (nr_pid prev) (nr_tri prev))).
  { unfold prev_node in Hp. destruct (nr_index node) as [|j]; [discriminate|]. unfold get_unchecked in Hp.
    destruct (nth_error (nodes (s_front s)) j) as [e|] eqn:Ei; [|discriminate]. cbn [rbind] in Hp. injection Hp as <-.
    cbn [to_node nr_index nr_point nr_pid nr_tri]. split; auto. rewrite Ei. destruct e; reflexivity. }
  assert (Gx : S (nr_index node) < length (nodes (s_front s))).
  { unfold next_node in Hx. destruct (Nat.ltb_spec (nr_index node + 1) (length (nodes (s_front s)))); [lia|discriminate]. }
  destruct Gp as [Gi Gp].
  apply wp_bind, wp_put_tris.
  (* the state in between is only used for its trace *)
  apply wp_bind, wp_lift.
  destruct (update_and_delete_by_index dbg (s_front s) (nr_index prev) (nr_pid prev) (Some (length (s_tris s))) (nr_index node)) as [af| | |] eqn:Hu;
    cbn [okr]; try exact HJ.
  apply wp_bind, wp_put_front. cbn [s_tris s_front s_result s_trace].
  assert (Eaf : af = mkFront (list_remove (list_set (nodes (s_front s)) (nr_index prev)
     (set_tri (mkEntry (nr_point prev) (nr_pid prev) (nr_tri prev)) (Some (length (s_tris s))))) (nr_index node)) None).
  { unfold update_and_delete_by_index in Hu. rewrite Gp in Hu.
    destruct (if dbg then _ else _) in Hu; try discriminate. cbn [rbind unwrap] in Hu.
    destruct (if dbg then _ else _) in Hu; try discriminate. cbn [rbind unwrap] in Hu.
    destruct (rassert _ _) in Hu; try discriminate. cbn [rbind] in Hu. congruence. }
  assert (C1 : chain points (list_set (nodes (s_front s)) (nr_index prev)
     (set_tri (mkEntry (nr_point prev) (nr_pid prev) (nr_tri prev)) (Some (length (s_tris s)))))).
  { apply set_tri_chain; auto; [apply FO|discriminate]. }
  set (ns1 := list_set _ _ _) in *.
  assert (L1 : length ns1 = f) by (unfold ns1; rewrite list_set_length; auto).
  assert (W1 : within ns1).
  { intros j e' Hj. unfold ns1 in Hj. rewrite nth_error_list_set in Hj. destruct (Nat.eqb_spec (nr_index prev) j) as [<-|].
    - rewrite (proj2 (Nat.ltb_lt _ _) (nth_error_lt _ _ _ Gp)) in Hj. injection Hj as <-. apply (W _ _ Gp).
    - apply (W _ _ Hj). }
  assert (C2 : chain points (list_remove ns1 (nr_index node))) by (apply remove_chain; auto; lia).
  assert (IN : In_ (S n) (f - 1) (mkSw ts2 af (s_result s) (s_trace s))).
  { split; [|split; [|split]]; auto.
    - cbn [s_tris]. transitivity (length ts1); [exact H2|]. transitivity (S (length (s_tris s))).
      + rewrite H1, app_length. simpl. lia.
      + unfold TriangleStore in *. lia.
    - cbn [s_front]. rewrite Eaf. split; [split|split]; cbn [nodes]; auto.
      + exact I.
      + intros j e' Hj. rewrite nth_error_list_remove in Hj. destruct (j <? nr_index node); apply (W1 _ _ Hj).
      + rewrite list_remove_length by lia. lia. }
  assert (IK : Ik k (mkSw ts2 af (s_result s) (s_trace s))).
  { exists (S n), (f - 1). split; [lia|exact IN]. }
  assert (P : forall a, pres (Ik k) J (bind (legalize dbg points fuel a) (fun _ => ret (Some (mkFill (get_node_id prev) (get_node_id next)))))).
  { intro a. pose proof (Ik_J k) as IJ. apply (pres_bind _ _ IJ); [apply up; intros; apply legalize_pres_n|]. intros _. apply (pres_ret _ _ IJ). }
  apply (P _ _ IK).
Qed.

Lemma edge_event_pres_k k fuel e id q : nth_error (ps_points points) id = Some q -> pres (Ik k) J (edge_event dbg points fuel e q).
Proof using PP.
  intro Hq. pose proof (Ik_J k) as IJ. apply (edge_event_pres dbg points _ _ IJ).
  - intros. apply fill_one_pres.
  - intros. apply up. intros. apply try_mark_pres_n.
  - intros. apply up. intros. apply mark_collinear_pres_n.
  - intros. apply up. intros. apply mark_flipped_pres_n.
  - intros s t p ot op Hs _. revert s Hs. apply up. intros. apply flip_pair_pres_n.
  - intros. apply up. intros. apply legalize_pres_n.
  - apply up. intros. eapply node_with_cache_pres_n; eauto.
Qed.
Lemma rest_pres k fuel p id node_point : pres (Ik k) J
  (bind (if f_le (px p) (f_add (px node_point) f_eps) then bind (fill_one dbg points fuel id) (fun _ => skip) else skip)
        (fun _ => fill_advancing_front dbg points fuel p)).
Proof using PP. pose proof (Ik_J k) as IJ. apply (point_event_rest_pres dbg points _ _ IJ). intros. apply fill_one_pres. Qed.
End Inv.

Lemma insert_point_wp D x k fuel id p s : Ik D x k s -> nth_error (ps_points points) id = Some p -> ~ In id D -> id < ps_head points ->
  wp (insert_point dbg points fuel id p) s (fun _ => J) (fun _ s' => Ik (id :: D) x (k + 2) s').
Proof using PP.
  intros Hs Hp ND Lh. pose proof Hs as (n & f & Ek & (L & (FO & W & Lf) & X & HJ)). unfold insert_point.
  assert (NF : forall i e, nth_error (nodes (s_front s)) i = Some e -> en_pid e <> id).
  { intros i e He Q. pose proof (pr_head points PP). pose proof (pr_tail points PP). destruct (W i e He) as [H1|[H1|H1]]; [congruence|lia|lia]. }
  destruct (insert_chain dbg points PP (s_front s) id p (Some (length (s_tris s))) FO Hp ltac:(discriminate) NF)
    as (j & Lj & E1 & E2 & FO' & _ & _).
  apply wp_bind, wp_get_front. apply wp_bind, wp_lift. rewrite E1. cbn [okr]. cbv zeta.
  apply (Ik_lift D x k); auto. intros next Hx. apply wp_bind, wp_get_tris. cbn [ts_insert].
  apply (Ik_lift D x k); auto. intros nt _. apply (Ik_lift D x k); auto. intros ts1 H1. apply mark_length in H1.
  apply wp_bind, wp_put_tris. apply wp_bind, wp_lift. rewrite E2. cbn [okr]. apply wp_bind, wp_put_front.
  cbn [s_tris s_front s_result s_trace].
  assert (IK : Ik (id :: D) x (k + 2) (mkSw ts1 (mkFront (list_insert (nodes (s_front s)) j (mkEntry p id (Some (length (s_tris s))))) (Some (p, j))) (s_result s) (s_trace s))).
  { exists (S n), (S f). split; [lia|]. split; [|split; [|split]]; auto.
    - cbn [s_tris]. rewrite H1, app_length. unfold TriangleStore in *. simpl. lia.
    - split; [exact FO'|split]; cbn [nodes s_front].
      + intros i e He. assert (IN : In e (list_insert (nodes (s_front s)) j (mkEntry p id (Some (length (s_tris s)))))) by (eapply nth_error_In; eauto).
        apply In_list_insert in IN as [->|IN]; [left; left; reflexivity|]. apply In_nth_error in IN as [i' Hi'].
        destruct (W i' e Hi') as [Q|Q]; [left; right; auto|right; auto].
      + rewrite list_insert_length. lia. }
  assert (P : forall a r, pres (Ik (id :: D) x (k + 2)) J (bind (legalize dbg points fuel a) (fun _ => ret (r : NodeId * Point)))).
  { intros a r. pose proof (Ik_J (id :: D) x (k + 2)) as IJ. apply (pres_bind _ _ IJ); [apply up; intros; apply legalize_pres_n|]. intros _. apply (pres_ret _ _ IJ). }
  apply (P _ _ _ IK).
Qed.
Lemma point_event_wp D x k fuel id p s : Ik D x k s -> nth_error (ps_points points) id = Some p -> ~ In id D -> id < ps_head points ->
  wp (point_event dbg points fuel id p) s (fun _ => J) (fun _ s' => Ik (id :: D) x (k + 2) s').
Proof using PP.
  intros. unfold point_event. apply wp_bind. eapply wp_mono; [apply (insert_point_wp D x k); auto|auto|].
  intros [nid np] s' Hs'. apply rest_pres. exact Hs'.
Qed.

(** outer callbacks *)
Definition now (x : nat) : nat := 2 * (1 + x) + 2.
Lemma emit_outer D x e s : Ik D x (now (if is_exit e then S x else x)) s ->
  wp (emit e) s (fun _ => J) (fun _ s' => Ik D (if is_exit e then S x else x) (now (if is_exit e then S x else x)) s').
Proof using.
  intros (n & f & Ek & (L & FI & X & HJ)). apply wp_emit. exists n, f. split; auto.
  assert (Ex : exits (mkCb e (s_tris s) (s_front s) (s_result s) :: s_trace s) = if is_exit e then S x else x).
  { unfold exits in *. cbn [filter cb_event]. destruct (is_exit e); cbn [length]; congruence. }
  split; [|split; [|split]]; auto. unfold J. cbn [s_trace claims cb_event cb_front cb_tris].
  split; [apply FI|]. split; [|exact HJ]. intros _. rewrite Ex. destruct FI as (_ & _ & Lf). unfold now in Ek. unfold TriangleStore in *. lia.
Qed.
Lemma edges_loop_k D x fuel id q : nth_error (ps_points points) id = Some q -> forall ps,
  pres (Ik D x (now x)) J (edges_loop dbg points fuel id q ps).
Proof using PP.
  intros Hq. pose proof (Ik_J D x (now x)) as IJ. induction ps as [|p ps IH]; cbn [edges_loop]; [apply (pres_skip _ _ IJ)|]. cbv zeta.
  apply (pres_bind _ _ IJ); [eapply edge_event_pres_k; eauto|]. intros _.
  apply (pres_bind _ _ IJ); [|intros _; exact IH]. intros s Hs. apply (emit_outer D x (EvEdge (mkEdge p id)) s Hs).
Qed.

(** the points still to come: distinct, not yet inserted, with their coordinates *)
Definition todo (D : list nat) (l : list (pid * Point * PointEdges)) : Prop :=
  NoDup (map (fun y => fst (fst y)) l) /\
  forall y, In y l -> nth_error (ps_points points) (fst (fst y)) = Some (snd (fst y)) /\ ~ In (fst (fst y)) D /\ fst (fst y) < ps_head points.

Lemma sweep_loop_k fuel : forall l D x s, Ik D x (now x) s -> todo D l ->
  wp (sweep_loop dbg points fuel l) s (fun _ => J) (fun _ s' => exists D' x', Ik D' x' (now x') s').
Proof using PP.
  induction l as [|[[id p] es] l IH]; intros D x s Hs [ND TD]; cbn [sweep_loop]; [apply wp_skip; eauto|].
  destruct (TD _ (or_introl eq_refl)) as (Hp & Nd & Lh). cbn [fst snd] in *. inversion ND as [|? ? NI ND']; subst.
  apply wp_bind. eapply wp_mono; [apply (emit_outer D x (EvEnterPoint id) s Hs)|auto|]. intros ? s1 H1. cbn [is_exit] in H1.
  apply wp_bind. eapply wp_mono; [apply (point_event_wp D x (now x)); eauto|auto|]. intros ? s2 H2. cbv beta in H2.
  replace (now x + 2) with (now (S x)) in H2 by (unfold now; lia).
  apply wp_bind. eapply wp_mono; [apply (emit_outer (id :: D) x (EvExitPoint id) s2 H2)|auto|]. intros ? s3 H3. cbn [is_exit] in H3.
  apply wp_bind. eapply wp_mono; [apply (edges_loop_k (id :: D) (S x)); eauto|auto|]. intros ? s4 H4. cbv beta in H4.
  apply wp_bind.
  assert (G : forall b : bool, wp (if b then bind get_tris (fun ts => bind (lift (verify_triangles dbg points ts)) (fun ok =>
         bind (lift (rassert P_dbg_verify ok)) (fun _ => skip))) else skip) s4 (fun _ => J) (fun _ s' => s' = s4)).
  { intros []; [|apply wp_skip; auto]. apply wp_bind, wp_get_tris.
    apply (Ik_lift _ _ _ _ _ _ _ H4). intros ok _. apply (Ik_lift _ _ _ _ _ _ _ H4). intros u _. apply wp_skip. auto. }
  eapply wp_mono; [apply G|auto|]. intros ? s5 ->.
  apply (IH (id :: D) (S x)); auto. split; auto. intros y Hy. destruct (TD y (or_intror Hy)) as (T1 & T2 & T3).
  split; auto. split; auto. intros [Q|Q]; auto. apply NI. rewrite Q. apply (in_map (fun y => fst (fst y)) _ _ Hy).
Qed.

Lemma clean_loop_pres D x n f : forall fuel st, pres (In_ D x n f) J (clean_loop fuel st).
Proof using.
  intros fuel. pose proof (In_J D x n f) as IJ. induction fuel as [|fu IH]; intro st; cbn [clean_loop]; [apply (pres_fuel _ _ IJ)|].
  destruct st as [|[t from] st]; [apply (pres_skip _ _ IJ)|]. destruct (tid_invalid t); auto.
  apply g_tris. intros ts L. apply g_lift. intros tr _. destruct (negb _); auto. cbv zeta.
  apply (pres_bind _ _ IJ); [apply g_put_tris; rewrite ts_put_length; auto|]. intros _.
  apply (pres_bind _ _ IJ); [|intros _; apply IH]. intros s (H1 & H2 & H3 & H4). apply wp_push_result. split; [|split; [|split]]; auto.
Qed.
Lemma finalize_pres D x n f fuel : pres (In_ D x n f) J (finalize_polygon fuel).
Proof using.
  pose proof (In_J D x n f) as IJ. unfold finalize_polygon. apply g_front. intros af _.
  destruct (front_nth af 1); [|apply (pres_skip _ _ IJ)]. destruct (nr_tri _); [|apply (pres_skip _ _ IJ)].
  apply g_tris. intros ts _. apply g_lift. intros t0 _. destruct (negb _); [|apply (pres_skip _ _ IJ)].
  apply clean_loop_pres.
Qed.

Theorem run_body_claims fuel l D x s : iter_point_by_y points 1 = Done l -> Ik D x (now x) s -> todo D l ->
  wp (run_body dbg fuel points) s (fun _ => J) (fun _ => J).
Proof using PP.
  intros El Hs TD. unfold run_body, sweep_points. apply wp_bind. apply wp_bind, wp_lift. rewrite El. cbn [okr].
  eapply wp_mono; [eapply sweep_loop_k; eauto|auto|]. intros ? s1 (D' & x' & H1).
  apply wp_bind. eapply wp_mono; [apply (emit_outer D' x' EvSweepDone); auto|auto|]. intros ? s2 H2. cbn [is_exit] in H2.
  apply wp_bind. eapply wp_mono; [apply (up D' x' (now x')); [intros; apply finalize_pres|exact H2]|auto|]. intros ? s3 H3. cbv beta in H3.
  eapply wp_mono; [apply (emit_outer D' x' EvFinalized); exact H3|auto|]. intros ? s4 H4. exact (Ik_J D' x' _ _ H4).
Qed.
End S.
