(** * FrontSub: filling only removes points from the front *)
From Coq Require Import List Arith Bool Lia ZArith.
From Verif Require Import Base Num Shape ShapeSpec Utils Points Triangles Front Sweeper Cdt Lists Monad Traverse.
Import ListNotations.

Section S.
Context {A : Arith}.
Variable dbg : bool.
Variable points : Points.
Variable P : nat -> Prop.
Definition FP (af : AdvancingFront) : Prop := Forall (fun e => P (en_pid e)) (nodes af).
Definition subI (s : Sweeper) : Prop := FP (s_front s).
Lemma fs_IJ : forall s, subI s -> subI s. Proof using. auto. Qed.
Lemma fs_front {T} (k : AdvancingFront -> M T) : (forall af, FP af -> pres subI subI (k af)) -> pres subI subI (bind get_front k).
Proof using. intros H s Hs. apply wp_bind, wp_get_front. apply H; auto. Qed.
Lemma fs_lift {T U} (r : res T) (k : T -> M U) : (forall y, r = Done y -> pres subI subI (k y)) -> pres subI subI (bind (lift r) k).
Proof using. intros H s Hs. apply wp_bind, wp_lift. destruct r as [y| | |]; simpl; auto. apply H; auto. Qed.
Lemma fs_put_front af : FP af -> pres subI subI (put_front af).
Proof using. intros H s _. apply wp_put_front. exact H. Qed.
Lemma fs_put_tris ts : pres subI subI (put_tris ts). Proof using. intros s H. apply wp_put_tris. exact H. Qed.
Lemma fs_emit e : pres subI subI (emit e). Proof using. intros s H. apply wp_emit. exact H. Qed.
Hint Resolve fs_put_tris fs_emit : pres.

Lemma fs_set ns i e t : nth_error ns i = Some e -> Forall (fun e => P (en_pid e)) ns -> Forall (fun e => P (en_pid e)) (list_set ns i (set_tri e t)).
Proof using.
  intros H F. rewrite Forall_forall in *. intros x Hx. apply In_nth_error in Hx as [j Hj].
  destruct (Nat.eq_dec i j) as [<-|NE].
  - rewrite nth_error_list_set_eq in Hj by (eapply nth_error_lt; eauto). injection Hj as <-. apply (F e). eapply nth_error_In; eauto.
  - rewrite nth_error_list_set_ne in Hj by auto. apply F. eapply nth_error_In; eauto.
Qed.
Lemma In_remove {T} (l : list T) i x : In x (list_remove l i) -> In x l.
Proof using. revert i. induction l as [|y l IH]; intros [|i]; simpl; auto. intros [H|H]; eauto. Qed.
Lemma fs_map_nodes : forall l t a, pres subI subI (map_nodes_loop points l t a).
Proof using.
  induction l as [|i l IH]; intros t a; cbn [map_nodes_loop]; [apply (pres_skip _ _ fs_IJ)|].
  apply (pres_bind _ _ fs_IJ); [|intros; apply IH].
  destruct (tid_invalid _); [|apply (pres_skip _ _ fs_IJ)].
  apply fs_lift. intros cw _. apply fs_lift. intros p Hp. apply fs_front. intros af FA.
  apply fs_lift. intros af' H. apply fs_put_front. unfold update_triangle in H.
  destruct (search_by_key_with_cache af p) as [[k|k]| | |] eqn:Q; try discriminate. cbn [rbind unwrap] in H.
  destruct (nth_error (nodes af) k) as [e|] eqn:Hi; [|discriminate]. cbn [unwrap rbind] in H. injection H as <-.
  apply fs_set; auto.
Qed.
Lemma fs_map_triangle t : pres subI subI (map_triangle_to_nodes dbg points t).
Proof using. unfold map_triangle_to_nodes. pose proof fs_map_nodes. pres_go fs_IJ. Qed.
Lemma fs_map_triangles : forall l, pres subI subI (map_triangles dbg points l).
Proof using. pose proof fs_map_triangle. induction l as [|t l IH]; cbn [map_triangles]; pres_go fs_IJ. Qed.
Lemma fs_rotate t p ot op : pres subI subI (rotate_triangle_pair dbg t p ot op).
Proof using. unfold rotate_triangle_pair. pres_go fs_IJ. Qed.
Lemma fs_delaunay t ot : pres subI subI (set_delaunay_pair t ot).
Proof using. unfold set_delaunay_pair. pres_go fs_IJ. Qed.
Lemma fs_edges : forall l t, pres subI subI (legalize_edges dbg points l t).
Proof using. pose proof fs_rotate. pose proof fs_delaunay. induction l as [|i l IH]; intro t; cbn [legalize_edges]; pres_go fs_IJ. Qed.
Lemma fs_loop : forall fuel q r, pres subI subI (legalize_loop dbg points fuel q r).
Proof using. pose proof fs_edges. induction fuel as [|f IH]; intros q r; cbn [legalize_loop]; pres_go fs_IJ. Qed.
Lemma fs_legalize fuel t : pres subI subI (legalize dbg points fuel t).
Proof using. pose proof fs_loop. pose proof fs_map_triangles. unfold legalize. pres_go fs_IJ. Qed.
Lemma fs_fill_one fuel id : pres subI subI (fill_one dbg points fuel id).
Proof using.
  unfold fill_one. apply fs_front. intros af FA. apply fs_lift. intros o _. apply fs_lift. intros n _. apply fs_lift. intros [pn|] _; [|apply (pres_ret _ _ fs_IJ)].
  destruct (next_node af n) as [nx|]; [|apply (pres_ret _ _ fs_IJ)]. cbv zeta.
  apply (pres_bind _ _ fs_IJ); [apply (pres_get_tris _ _ fs_IJ)|]. intros ts. destruct (ts_insert _ _) as [nt ts1].
  do 4 (apply fs_lift; intros ? _). apply (pres_bind _ _ fs_IJ); [apply fs_put_tris|]. intros _.
  apply fs_lift. intros af' H. unfold update_and_delete_by_index in H.
  destruct (if dbg then rassert P_front_dbg (negb (tid_invalid nt)) else Done tt); try discriminate. cbn [rbind] in H.
  destruct (nth_error (nodes af) (nr_index pn)) as [e|] eqn:Hi; [|discriminate]. cbn [rbind unwrap] in H.
  destruct (if dbg then rassert P_front_dbg (en_pid e =? nr_pid pn) else Done tt); try discriminate. cbn [rbind] in H.
  destruct (rassert _ _); try discriminate. cbn [rbind] in H. injection H as <-.
  apply (pres_bind _ _ fs_IJ).
  - apply fs_put_front. unfold FP. cbn [nodes]. rewrite Forall_forall. intros x Hx. apply In_remove in Hx.
    assert (G := fs_set (nodes af) _ e nt Hi FA). rewrite Forall_forall in G. auto.
  - intros _. pose proof fs_legalize. pres_go fs_IJ.
Qed.
Lemma fs_faf fuel p : pres subI subI (fill_advancing_front dbg points fuel p).
Proof using. apply (fill_advancing_front_pres dbg points _ _ fs_IJ). apply fs_fill_one. Qed.
Lemma fs_fill_edge fuel e id : pres subI subI (fill_edge_event dbg points fuel e id).
Proof using. apply (fill_edge_event_pres dbg points _ _ fs_IJ). apply fs_fill_one. Qed.
End S.
