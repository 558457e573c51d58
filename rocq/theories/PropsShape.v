(** * PropsShape: C36 (edge flags) and C37 (triangle navigation) *)
From Coq Require Import List Arith NArith Bool Lia.
From Verif Require Import Base Num Shape ShapeSpec.
Import ListNotations.

(** C36.  A flag byte has bits 0..7; constrained is bit 0, Delaunay bit 1. *)
Theorem C36_set_constrained_sets_that_bit_only : forall a v k, (a < 256)%N ->
  N.testbit (attr_set_constrained a v) k = if (k =? 0)%N then v else N.testbit a k.
Proof. exact set_constrained_testbit. Qed.
Theorem C36_set_delaunay_sets_that_bit_only : forall a v k, (a < 256)%N ->
  N.testbit (attr_set_delaunay a v) k = if (k =? 1)%N then v else N.testbit a k.
Proof. exact set_delaunay_testbit. Qed.
Theorem C36_flags_stay_bytes : forall a v, (a < 256)%N ->
  (attr_set_constrained a v < 256)%N /\ (attr_set_delaunay a v < 256)%N.
Proof.
  assert (B : forall n, (forall k, (8 <= k)%N -> N.testbit n k = false) -> (n < 256)%N).
  { intros n H. destruct (N.eq_dec n 0) as [->|Z]; [reflexivity|].
    apply N.log2_lt_cancel. change (N.log2 256) with 8%N.
    destruct (N.lt_ge_cases (N.log2 n) 8) as [L|L]; auto.
    specialize (H _ L). rewrite N.bit_log2 in H; auto. discriminate. }
  intros a v H. split; apply B; intros k K.
  - rewrite C36_set_constrained_sets_that_bit_only by auto. destruct (N.eqb_spec k 0); [lia|]. apply testbit_small; auto.
  - rewrite C36_set_delaunay_sets_that_bit_only by auto. destruct (N.eqb_spec k 1); [lia|]. apply testbit_small; auto.
Qed.
Theorem C36_read_back : forall a v,
  attr_is_constrained (attr_set_constrained a v) = v /\ attr_is_delaunay (attr_set_constrained a v) = attr_is_delaunay a /\
  attr_is_delaunay (attr_set_delaunay a v) = v /\ attr_is_constrained (attr_set_delaunay a v) = attr_is_constrained a.
Proof. intros a v. rewrite con_set_con, del_set_con, del_set_del, con_set_del. auto. Qed.
(** on a triangle: only that flag of that edge changes *)
Theorem C36_triangle_flags : forall t i v,
  let t' := tri_set_constrained t i v in let t'' := tri_set_delaunay t i v in
  t_points t' = t_points t /\ t_neighbors t' = t_neighbors t /\ t_interior t' = t_interior t /\
  t_points t'' = t_points t /\ t_neighbors t'' = t_neighbors t /\ t_interior t'' = t_interior t /\
  forall j,
    tri_is_constrained t' j = (if ix_eq_dec i j then v else tri_is_constrained t j) /\
    tri_is_delaunay t' j = tri_is_delaunay t j /\
    tri_is_delaunay t'' j = (if ix_eq_dec i j then v else tri_is_delaunay t j) /\
    tri_is_constrained t'' j = tri_is_constrained t j.
Proof.
  intros t i v t' t''. repeat split; unfold t', t'', tri_is_constrained, tri_is_delaunay, tri_set_constrained, tri_set_delaunay; simpl;
    rewrite get3_set3; destruct (ix_eq_dec i j); subst; rewrite ?con_set_con, ?del_set_con, ?del_set_del, ?con_set_del; auto.
Qed.
Print Assumptions C36_set_constrained_sets_that_bit_only.
Print Assumptions C36_set_delaunay_sets_that_bit_only.
Print Assumptions C36_flags_stay_bytes.
Print Assumptions C36_read_back.
Print Assumptions C36_triangle_flags.

(** C37.  Vertices are listed counter-clockwise; [vertices t] is the set. *)
Definition vertices (t : InnerTriangle) : list nat := [a0 (t_points t); a1 (t_points t); a2 (t_points t)].
Lemma vertices_V t p : In p (vertices t) <-> exists i, p = V t i.
Proof.
  unfold vertices, V. simpl. split.
  - intros [H|[H|[H|[]]]]; [exists I0|exists I1|exists I2]; auto.
  - intros [[] ->]; simpl; auto.
Qed.
Lemma distinct_NoDup t : NoDup (vertices t) <-> distinct t.
Proof.
  rewrite distinct_iff. unfold vertices, V; simpl. split.
  - intro H. inversion H as [|x l H1 H2]; subst. inversion H2 as [|y l' H3 H4]; subst. simpl in *. intuition.
  - intros (A & B & C). repeat constructor; simpl; intuition.
Qed.

Theorem C37_cw_ccw_inverse : forall t p, NoDup (vertices t) -> In p (vertices t) ->
  exists q r, point_ccw t p = Done q /\ point_cw t q = Done p /\
              point_cw t p = Done r /\ point_ccw t r = Done p /\ point_ccw t q = Done r /\
              NoDup [p; q; r] /\ (forall x, In x (vertices t) <-> In x [p; q; r]).
Proof.
  intros t p D H. apply distinct_NoDup in D. apply vertices_V in H as [i ->].
  exists (V t (nxt i)), (V t (prv i)). rewrite !point_ccw_V, !point_cw_V by auto.
  rewrite ?prv_nxt, ?nxt_prv, ?nxt_nxt. repeat split; auto.
  - pose proof (nxt_neq i); pose proof (prv_neq i); pose proof (nxt_prv_neq i).
    assert (V t i <> V t (nxt i)) by (intro Q; apply D in Q; congruence).
    assert (V t i <> V t (prv i)) by (intro Q; apply D in Q; congruence).
    assert (V t (nxt i) <> V t (prv i)) by (intro Q; apply D in Q; congruence).
    repeat constructor; simpl; intuition.
  - rewrite vertices_V. intros [j ->]. destruct (ix_cases i j) as [->|[->| ->]]; simpl; auto.
  - rewrite vertices_V. intros [<-|[<-|[<-|[]]]]; eauto.
Qed.
Theorem C37_navigation_fails_exactly_off_the_triangle : forall t p, ~ In p (vertices t) ->
  point_cw t p = Panic P_point_not_in_triangle /\ point_ccw t p = Panic P_point_not_in_triangle /\
  neighbor_across t p = Panic P_neighbor_across.
Proof.
  intros t p H. rewrite vertices_V in H. unfold point_cw, point_ccw.
  destruct (by_point_ok t p (a2 (t_points t)) (a0 (t_points t)) (a1 (t_points t))) as [[-> _]|[i [-> _]]]; [|exfalso; eauto].
  destruct (by_point_ok t p (a1 (t_points t)) (a2 (t_points t)) (a0 (t_points t))) as [[-> _]|[i [-> _]]]; [|exfalso; eauto].
  unfold neighbor_across. destruct (point_index t p) eqn:E; auto. apply point_index_some in E. exfalso; eauto.
Qed.
(** [o] lies across the edge opposite to [p]: it contains the edge from q = ccw(p)
    to r = cw(p) in the other direction, with the apex x. *)
Theorem C37_opposite_point : forall t o p q r x,
  NoDup (vertices t) -> NoDup (vertices o) -> In p (vertices t) ->
  point_ccw t p = Done q -> point_cw t p = Done r ->
  In x (vertices o) -> point_ccw o x = Done r -> point_cw o x = Done q ->
  opposite_point o t p = Done x /\ (x <> p -> exists i j, common_edge_index t o = Some (i, j) /\
     get3 (t_points t) i = p /\ get3 (t_points o) j = x /\ common_edge_index o t = Some (j, i)).
Proof.
  intros t o p q r x Dt Do Hp Hq Hr Hx H1 H2. apply distinct_NoDup in Dt, Do.
  apply vertices_V in Hp as [i ->]. apply vertices_V in Hx as [j ->].
  rewrite point_ccw_V in Hq, H1 by auto. rewrite point_cw_V in Hr, H2 by auto.
  injection Hq as <-. injection Hr as <-. injection H1 as H1. injection H2 as H2.
  split; [apply opposite_point_V; auto|]. intro N. exists i, j.
  assert (E1 : common_edge_index t o = Some (i, j)).
  { apply common_edge_index_V; auto; unfold dedge; cbn [fst snd]; try rewrite H1; try rewrite H2; auto. }
  assert (E2 : common_edge_index o t = Some (j, i)).
  { apply common_edge_index_V; auto; unfold dedge; cbn [fst snd]; try rewrite H1; try rewrite H2; auto. }
  rewrite E1, E2. repeat split.
Qed.
Theorem C37_edge_index : forall t p q, NoDup (vertices t) -> In p (vertices t) -> In q (vertices t) -> p <> q ->
  exists i, edge_index t p q = Some i /\ get3 (t_points t) i <> p /\ get3 (t_points t) i <> q.
Proof.
  intros t p q D Hp Hq N. apply distinct_NoDup in D.
  apply vertices_V in Hp as [i ->]. apply vertices_V in Hq as [j ->].
  assert (K : exists k, (i = nxt k /\ j = prv k) \/ (i = prv k /\ j = nxt k)).
  { destruct (ix_cases i j) as [->|[->| ->]]; [congruence|exists (prv i)|exists (nxt i)].
    - left. rewrite nxt_prv, prv_prv; auto.
    - right. rewrite prv_nxt, nxt_nxt; auto. }
  destruct K as [k K]. exists k. destruct (edge_index_V t k D) as [E1 E2].
  change (get3 (t_points t) k) with (V t k).
  assert (V t k <> V t (nxt k)) by (intro Q; apply D in Q; pose proof (nxt_neq k); congruence).
  assert (V t k <> V t (prv k)) by (intro Q; apply D in Q; pose proof (prv_neq k); congruence).
  destruct K as [[-> ->]|[-> ->]]; auto.
Qed.
(** a common edge found is really common *)
Theorem C37_common_edge_sound : forall t o i j, common_edge_index t o = Some (i, j) ->
  forall p, In p (vertices t) -> p <> get3 (t_points t) i -> In p (vertices o).
Proof.
  intros t o i j H p Hp N. apply vertices_V in Hp as [k ->]. apply vertices_V.
  destruct (ix_cases i k) as [->|[->| ->]]; [exfalso; apply N; reflexivity| |];
    destruct (common_edge_index_some _ _ _ _ H) as [[A B]|[A B]]; eauto.
Qed.
(** The claim that a common edge is found whatever the vertex order of the two
    triangles is false: when both traverse it in the same direction (one of
    them is inverted) it can be missed. *)
Theorem C37_common_edge_any_order_refuted :
  ~ (forall t o, NoDup (vertices t) -> NoDup (vertices o) ->
       (exists p q, p <> q /\ In p (vertices t) /\ In q (vertices t) /\ In p (vertices o) /\ In q (vertices o)) ->
       common_edge_index t o <> None).
Proof.
  intro H. apply (H (tri_new 1 2 3) (tri_new 2 3 4)).
  - repeat constructor; simpl; intuition discriminate.
  - repeat constructor; simpl; intuition discriminate.
  - exists 2, 3. simpl. intuition.
  - reflexivity.
Qed.
Print Assumptions C37_cw_ccw_inverse.
Print Assumptions C37_navigation_fails_exactly_off_the_triangle.
Print Assumptions C37_opposite_point.
Print Assumptions C37_edge_index.
Print Assumptions C37_common_edge_sound.
Print Assumptions C37_common_edge_any_order_refuted.

(** Non-vacuity *)
Example C37_example : NoDup (vertices (tri_new 7 3 9)) /\
  opposite_point (tri_new 9 3 5) (tri_new 7 3 9) 7 = Done 5 /\
  common_edge_index (tri_new 7 3 9) (tri_new 9 3 5) = Some (I0, I2).
Proof. split; [|split; reflexivity]. repeat constructor; simpl; intuition discriminate. Qed.
