(** * ShapeSpec: triangles addressed by position *)
From Coq Require Import List Arith NArith Bool Lia.
From Verif Require Import Base Num Shape.
Import ListNotations.

(** the positions counter-clockwise (next) and clockwise (previous) of [i] *)
Definition nxt (i : ix) : ix := match i with I0 => I1 | I1 => I2 | I2 => I0 end.
Definition prv (i : ix) : ix := match i with I0 => I2 | I1 => I0 | I2 => I1 end.
Lemma nxt_nxt i : nxt (nxt i) = prv i. Proof. destruct i; reflexivity. Qed.
Lemma prv_prv i : prv (prv i) = nxt i. Proof. destruct i; reflexivity. Qed.
Lemma nxt_prv i : nxt (prv i) = i. Proof. destruct i; reflexivity. Qed.
Lemma prv_nxt i : prv (nxt i) = i. Proof. destruct i; reflexivity. Qed.
Lemma nxt_neq i : nxt i <> i. Proof. destruct i; discriminate. Qed.
Lemma prv_neq i : prv i <> i. Proof. destruct i; discriminate. Qed.
Lemma nxt_prv_neq i : nxt i <> prv i. Proof. destruct i; discriminate. Qed.
Lemma ix_cases i j : j = i \/ j = nxt i \/ j = prv i.
Proof. destruct i, j; auto. Qed.
Definition ix_eq_dec (i j : ix) : {i = j} + {i <> j}. Proof. decide equality. Defined.

Lemma get3_set3_eq {T} (a : arr3 T) i v : get3 (set3 a i v) i = v.
Proof. destruct i; reflexivity. Qed.
Lemma get3_set3_ne {T} (a : arr3 T) i j v : i <> j -> get3 (set3 a i v) j = get3 a j.
Proof. destruct i, j; congruence || reflexivity. Qed.
Lemma get3_set3 {T} (a : arr3 T) i j v : get3 (set3 a i v) j = if ix_eq_dec i j then v else get3 a j.
Proof. destruct (ix_eq_dec i j); [subst; apply get3_set3_eq|apply get3_set3_ne; auto]. Qed.
Lemma arr3_ext {T} (a b : arr3 T) : (forall i, get3 a i = get3 b i) -> a = b.
Proof. destruct a, b. intro H. pose proof (H I0); pose proof (H I1); pose proof (H I2). simpl in *. congruence. Qed.

(** vertex, neighbour, attribute at a position *)
Definition V (t : InnerTriangle) (i : ix) : nat := get3 (t_points t) i.
Definition NB (t : InnerTriangle) (i : ix) : option nat := get3 (t_neighbors t) i.
Definition AT (t : InnerTriangle) (i : ix) : EdgeAttr := get3 (t_attrs t) i.
Definition distinct (t : InnerTriangle) : Prop := forall i j, V t i = V t j -> i = j.

Lemma distinct_iff t : distinct t <-> V t I0 <> V t I1 /\ V t I1 <> V t I2 /\ V t I0 <> V t I2.
Proof.
  split.
  - intro D. repeat split; intro H; apply D in H; discriminate.
  - intros (A & B & C) i j H. destruct i, j; congruence || reflexivity.
Qed.

Ltac eqb_cases := repeat match goal with
  | |- context [ ?x =? ?y ] => destruct (Nat.eqb_spec x y)
  end.

Lemma point_index_V t i : distinct t -> point_index t (V t i) = Some i.
Proof.
  intro D. apply distinct_iff in D as (A & B & C). unfold point_index, V in *. simpl in *.
  destruct i; simpl in *; eqb_cases; congruence.
Qed.
Lemma point_index_some t p i : point_index t p = Some i -> p = V t i.
Proof. unfold point_index, V. eqb_cases; intro H; try discriminate; injection H as <-; simpl; auto. Qed.
Lemma point_index_none t p : point_index t p = None -> forall i, p <> V t i.
Proof. unfold point_index, V. eqb_cases; try discriminate. intros _ []; simpl; congruence. Qed.
Lemma by_point_V {T} t i (v0 v1 v2 : T) : distinct t -> by_point t (V t i) v0 v1 v2 = Done (get3 (mkArr v0 v1 v2) i).
Proof.
  intro D. apply distinct_iff in D as (A & B & C). unfold by_point, V in *. simpl in *.
  destruct i; simpl in *; eqb_cases; congruence.
Qed.
(** without distinctness the result belongs to some position holding [p] *)
Lemma by_point_done {T} t p (v0 v1 v2 : T) x : by_point t p v0 v1 v2 = Done x ->
  exists i, p = V t i /\ x = get3 (mkArr v0 v1 v2) i.
Proof.
  unfold by_point, V. eqb_cases; intro H; try discriminate; injection H as <-;
    [exists I0|exists I1|exists I2]; auto.
Qed.
Lemma by_point_ok {T} t p (v0 v1 v2 : T) :
  by_point t p v0 v1 v2 = Panic P_point_not_in_triangle /\ (forall i, p <> V t i) \/
  exists i, p = V t i /\ by_point t p v0 v1 v2 = Done (get3 (mkArr v0 v1 v2) i).
Proof.
  unfold by_point, V. eqb_cases; [right; exists I0|right; exists I1|right; exists I2|left]; auto.
  split; auto. intros []; simpl; auto.
Qed.

Lemma point_cw_V t i : distinct t -> point_cw t (V t i) = Done (V t (prv i)).
Proof. intro D. unfold point_cw. rewrite by_point_V by auto. destruct i; reflexivity. Qed.
Lemma point_ccw_V t i : distinct t -> point_ccw t (V t i) = Done (V t (nxt i)).
Proof. intro D. unfold point_ccw. rewrite by_point_V by auto. destruct i; reflexivity. Qed.
Lemma edge_attr_ccw_V t i : distinct t -> edge_attr_ccw t (V t i) = Done (AT t (prv i)).
Proof. intro D. unfold edge_attr_ccw. rewrite by_point_V by auto. destruct i; reflexivity. Qed.
Lemma edge_attr_cw_V t i : distinct t -> edge_attr_cw t (V t i) = Done (AT t (nxt i)).
Proof. intro D. unfold edge_attr_cw. rewrite by_point_V by auto. destruct i; reflexivity. Qed.
Lemma neighbor_ccw_V t i : distinct t -> neighbor_ccw t (V t i) = Done (NB t (prv i)).
Proof. intro D. unfold neighbor_ccw. rewrite by_point_V by auto. destruct i; reflexivity. Qed.
Lemma neighbor_cw_V t i : distinct t -> neighbor_cw t (V t i) = Done (NB t (nxt i)).
Proof. intro D. unfold neighbor_cw. rewrite by_point_V by auto. destruct i; reflexivity. Qed.
Lemma neighbor_across_V t i : distinct t -> neighbor_across t (V t i) = Done (NB t i).
Proof. intro D. unfold neighbor_across. rewrite point_index_V by auto. reflexivity. Qed.
Lemma constrained_edge_cw_V t i : distinct t -> constrained_edge_cw t (V t i) = Done (attr_is_constrained (AT t (nxt i))).
Proof. intro D. unfold constrained_edge_cw. rewrite point_index_V by auto. destruct i; reflexivity. Qed.
Lemma set_edge_attr_cw_V t i a : distinct t ->
  set_edge_attr_cw t (V t i) a = Done (with_attrs t (set3 (t_attrs t) (nxt i) a)).
Proof. intro D. unfold set_edge_attr_cw. rewrite by_point_V by auto. destruct i; reflexivity. Qed.
Lemma set_edge_attr_ccw_V t i a : distinct t ->
  set_edge_attr_ccw t (V t i) a = Done (with_attrs t (set3 (t_attrs t) (prv i) a)).
Proof. intro D. unfold set_edge_attr_ccw. rewrite by_point_V by auto. destruct i; reflexivity. Qed.

Definition rotated (t : InnerTriangle) (i : ix) (n : nat) : InnerTriangle :=
  with_points t (set3 (set3 (set3 (t_points t) (nxt i) (V t i)) (prv i) n) i (V t (prv i))).
Lemma rotate_cw_V t i n : distinct t -> rotate_cw t (V t i) n = Done (rotated t i n).
Proof.
  intro D. apply distinct_iff in D as (A & B & C). unfold rotate_cw, rotated, V in *. destruct t as [[x y z] ns at_ int]; simpl in *.
  destruct i; simpl in *; eqb_cases; congruence || reflexivity.
Qed.
Lemma rotated_V t i n : V (rotated t i n) (nxt i) = V t i /\ V (rotated t i n) (prv i) = n /\ V (rotated t i n) i = V t (prv i).
Proof. destruct t as [[x y z] ns at_ int]. destruct i; unfold V; simpl; auto. Qed.

(** directed edge opposite to position [i] *)
Definition dedge (t : InnerTriangle) (i : ix) : nat * nat := (V t (nxt i), V t (prv i)).

Lemma edge_index_V t i : distinct t ->
  edge_index t (V t (nxt i)) (V t (prv i)) = Some i /\ edge_index t (V t (prv i)) (V t (nxt i)) = Some i.
Proof.
  intro D. apply distinct_iff in D as (A & B & C). unfold edge_index, V in *. simpl in *.
  destruct i; simpl in *; split; eqb_cases; congruence.
Qed.
Lemma edge_index_some t p q i : edge_index t p q = Some i ->
  (p = V t (nxt i) /\ q = V t (prv i)) \/ (p = V t (prv i) /\ q = V t (nxt i)).
Proof.
  unfold edge_index, V. eqb_cases; intro H; try discriminate; injection H as <-; simpl; auto.
Qed.
Lemma edge_index_none t p q : distinct t -> edge_index t p q = None ->
  forall i, ~ (p = V t (nxt i) /\ q = V t (prv i)) /\ ~ (p = V t (prv i) /\ q = V t (nxt i)).
Proof.
  intros D H i. destruct (edge_index_V t i D) as [H1 H2]. split; intros [-> ->]; congruence.
Qed.

(** two triangles traversing a common edge in opposite directions *)
Lemma common_edge_index_V s o i j : distinct s -> distinct o ->
  dedge s i = (snd (dedge o j), fst (dedge o j)) -> V s i <> V o j ->
  common_edge_index s o = Some (i, j).
Proof.
  intros Ds Do H N. apply distinct_iff in Ds as (A & B & C). apply distinct_iff in Do as (A' & B' & C').
  unfold dedge, V in *. destruct s as [[s0 s1 s2] ? ? ?], o as [[o0 o1 o2] ? ? ?].
  unfold common_edge_index; simpl in *.
  destruct i, j; simpl in *; injection H as H1 H2; subst; eqb_cases; congruence.
Qed.
(** whatever is found is a shared edge *)
Lemma common_edge_index_some s o i j : common_edge_index s o = Some (i, j) ->
  (V s (nxt i) = V o (prv j) /\ V s (prv i) = V o (nxt j)) \/ (V s (nxt i) = V o (nxt j) /\ V s (prv i) = V o (prv j)).
Proof.
  unfold common_edge_index, V. destruct s as [[s0 s1 s2] ? ? ?], o as [[o0 o1 o2] ? ? ?]; simpl.
  eqb_cases; intro H; try discriminate; injection H as <- <-; simpl; auto.
Qed.

Lemma opposite_point_V s o i j : distinct s -> distinct o ->
  V s (prv i) = V o (nxt j) -> opposite_point o s (V s i) = Done (V o j).
Proof.
  intros Ds Do H. unfold opposite_point. rewrite point_cw_V by auto. simpl. rewrite H, point_cw_V, prv_nxt by auto.
  reflexivity.
Qed.

(** ** flags *)
Lemma is_constrained_testbit a : attr_is_constrained a = N.testbit a 0.
Proof.
  unfold attr_is_constrained, CONSTRAINED. rewrite N.bit0_odd.
  destruct a as [|[p|p|]]; simpl; reflexivity.
Qed.
Lemma is_delaunay_testbit a : attr_is_delaunay a = N.testbit a 1.
Proof. unfold attr_is_delaunay, DELAUNAY. destruct a as [|[[p|p|]|[p|p|]|]]; reflexivity. Qed.

Lemma testbit_small n k : (n < 256)%N -> (8 <= k)%N -> N.testbit n k = false.
Proof.
  intros H K. destruct (N.eq_dec n 0) as [->|Z]; [apply N.bits_0|].
  apply N.bits_above_log2. apply N.lt_le_trans with 8%N; auto.
  apply N.log2_lt_pow2; [lia|]. exact H.
Qed.
Lemma set_constrained_testbit a v k : (a < 256)%N ->
  N.testbit (attr_set_constrained a v) k = if (k =? 0)%N then v else N.testbit a k.
Proof.
  intro H. unfold attr_set_constrained. destruct v; simpl.
  - rewrite N.lor_spec. destruct (N.eqb_spec k 0) as [->|N]; [simpl; apply orb_true_r|].
    change CONSTRAINED with (2^0)%N. rewrite N.pow2_bits_false by auto. apply orb_false_r.
  - rewrite N.land_spec. destruct (N.eqb_spec k 0) as [->|N]; [simpl; apply andb_false_r|].
    destruct (N.le_gt_cases 8 k) as [K|K]; [rewrite (testbit_small a k) by auto; reflexivity|].
    unfold CONSTRAINED_UNSET. rewrite N.lxor_spec. change ATTR_ALL with (N.ones 8). rewrite N.ones_spec_low by auto.
    change CONSTRAINED with (2^0)%N. rewrite N.pow2_bits_false by auto. apply andb_true_r.
Qed.
Lemma set_delaunay_testbit a v k : (a < 256)%N ->
  N.testbit (attr_set_delaunay a v) k = if (k =? 1)%N then v else N.testbit a k.
Proof.
  intro H. unfold attr_set_delaunay. destruct v; simpl.
  - rewrite N.lor_spec. change DELAUNAY with (2^1)%N. destruct (N.eqb_spec k 1) as [->|N].
    + rewrite N.pow2_bits_true. apply orb_true_r.
    + rewrite N.pow2_bits_false by auto. apply orb_false_r.
  - rewrite N.land_spec. unfold DELAUNAY_UNSET. rewrite N.lxor_spec. change DELAUNAY with (2^1)%N.
    destruct (N.eqb_spec k 1) as [->|N]; [rewrite N.pow2_bits_true; simpl; apply andb_false_r|].
    destruct (N.le_gt_cases 8 k) as [K|K]; [rewrite (testbit_small a k) by auto; reflexivity|].
    change ATTR_ALL with (N.ones 8). rewrite N.ones_spec_low by auto.
    rewrite N.pow2_bits_false by auto. apply andb_true_r.
Qed.
(** the two flags, whatever the other bits *)
Lemma con_set_con a v : attr_is_constrained (attr_set_constrained a v) = v.
Proof.
  rewrite is_constrained_testbit. unfold attr_set_constrained. destruct v; simpl.
  - rewrite N.lor_spec. apply orb_true_r.
  - rewrite N.land_spec. apply andb_false_r.
Qed.
Lemma del_set_con a v : attr_is_delaunay (attr_set_constrained a v) = attr_is_delaunay a.
Proof.
  rewrite !is_delaunay_testbit. unfold attr_set_constrained. destruct v; simpl.
  - rewrite N.lor_spec. apply orb_false_r.
  - rewrite N.land_spec. apply andb_true_r.
Qed.
Lemma del_set_del a v : attr_is_delaunay (attr_set_delaunay a v) = v.
Proof.
  rewrite is_delaunay_testbit. unfold attr_set_delaunay. destruct v; simpl.
  - rewrite N.lor_spec. apply orb_true_r.
  - rewrite N.land_spec. apply andb_false_r.
Qed.
Lemma con_set_del a v : attr_is_constrained (attr_set_delaunay a v) = attr_is_constrained a.
Proof.
  rewrite !is_constrained_testbit. unfold attr_set_delaunay. destruct v; simpl.
  - rewrite N.lor_spec. apply orb_false_r.
  - rewrite N.land_spec. apply andb_true_r.
Qed.
