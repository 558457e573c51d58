(** * Mesh: the triangle store as a triangulated surface

    A store is read through total accessors (vertex, neighbour, flags at a
    position).  [mesh N zc ts]: every triangle is counter-clockwise (zc gives
    the coordinates of a vertex id), ids are in range and adjacency is
    symmetric. *)
From Coq Require Import List Arith Bool Lia ZArith.
From Verif Require Import Base Num Shape ShapeSpec Points Triangles Sweeper Lists Exact Geom.
Import ListNotations.

(** ** accessors *)
Definition tri_at (ts : TriangleStore) (a : nat) : InnerTriangle := nth a ts (tri_new 0 0 0).
Definition tv (ts : TriangleStore) (a : nat) (i : ix) : nat := V (tri_at ts a) i.
Definition tn (ts : TriangleStore) (a : nat) (i : ix) : option nat := NB (tri_at ts a) i.
Definition tc (ts : TriangleStore) (a : nat) (i : ix) : bool := tri_is_constrained (tri_at ts a) i.
Definition td (ts : TriangleStore) (a : nat) (i : ix) : bool := tri_is_delaunay (tri_at ts a) i.
Definition tint (ts : TriangleStore) (a : nat) : bool := t_interior (tri_at ts a).

Lemma nth_error_at ts a : a < length ts -> nth_error ts a = Some (tri_at ts a).
Proof. intro H. unfold tri_at. apply nth_error_nth'; auto. Qed.
Lemma at_nth_error ts a t : nth_error ts a = Some t -> tri_at ts a = t.
Proof. intro H. unfold tri_at. apply nth_error_nth; auto. Qed.
Lemma tri_at_set ts a t c : a < length ts -> tri_at (list_set ts a t) c = if a =? c then t else tri_at ts c.
Proof.
  intro H. destruct (Nat.eqb_spec a c) as [<-|N].
  - apply at_nth_error. apply nth_error_list_set_eq; auto.
  - unfold tri_at. destruct (Nat.lt_ge_cases c (length ts)) as [L|L].
    + erewrite nth_error_nth; [reflexivity|]. rewrite nth_error_list_set_ne by auto. apply nth_error_nth'; auto.
    + rewrite !nth_overflow; auto. rewrite list_set_length; auto.
Qed.
Lemma tri_at_app ts t c : tri_at (ts ++ [t]) c = if c =? length ts then t else tri_at ts c.
Proof.
  unfold tri_at. destruct (Nat.eqb_spec c (length ts)) as [->|N].
  - rewrite app_nth2, Nat.sub_diag by lia. reflexivity.
  - destruct (Nat.lt_ge_cases c (length ts)) as [L|L]; [apply app_nth1; auto|].
    rewrite !nth_overflow; auto; rewrite ?app_length; simpl; lia.
Qed.

(** ** specification: a consistent triangulated surface *)
Section Spec.
Variable N : nat.
Variable zc : nat -> zpt.

Definition ccw3 (x y z : nat) : Prop := (0 < orient (zc x) (zc y) (zc z))%Z.
Definition tccw (ts : TriangleStore) (a : nat) : Prop := ccw3 (tv ts a I0) (tv ts a I1) (tv ts a I2).
(** edge i of a and edge j of b are the same edge traversed in opposite directions *)
Definition opposed (ts : TriangleStore) (a : nat) (i : ix) (b : nat) (j : ix) : Prop :=
  tv ts a (nxt i) = tv ts b (prv j) /\ tv ts a (prv i) = tv ts b (nxt j).

(** a and b are listed as each other's neighbour across that edge *)
Definition paired (ts : TriangleStore) (a : nat) (i : ix) (b : nat) (j : ix) : Prop :=
  a < length ts /\ b < length ts /\ tn ts a i = Some b /\ tn ts b j = Some a /\ opposed ts a i b j.

Record mesh (ts : TriangleStore) : Prop := {
  m_range : forall a i, a < length ts -> tv ts a i < N;
  m_ccw : forall a, a < length ts -> tccw ts a;
  m_adj : forall a i b, a < length ts -> tn ts a i = Some b -> exists j, paired ts a i b j
}.
(** constrained flags agree on the two sides of an edge *)
Definition flags_agree (ts : TriangleStore) : Prop :=
  forall a i b j, paired ts a i b j -> tc ts a i = tc ts b j.

Lemma ccw3_rot x y z : ccw3 x y z <-> ccw3 y z x.
Proof. unfold ccw3. rewrite (orient_rot (zc x)). tauto. Qed.
Lemma tccw_at ts a i : tccw ts a <-> ccw3 (tv ts a i) (tv ts a (nxt i)) (tv ts a (prv i)).
Proof. unfold tccw. destruct i; simpl; [tauto|apply ccw3_rot|symmetry; apply ccw3_rot]. Qed.
Lemma ccw3_distinct x y z : ccw3 x y z -> x <> y /\ y <> z /\ x <> z.
Proof.
  intro H. unfold ccw3 in H. assert (orient (zc x) (zc y) (zc z) <> 0)%Z as K by lia. apply orient_neq in K as (A & B & C).
  repeat split; congruence.
Qed.
Lemma tccw_distinct ts a : tccw ts a -> distinct (tri_at ts a).
Proof. intro H. apply distinct_iff. apply ccw3_distinct in H. exact H. Qed.
Lemma tv_inj ts a i j : tccw ts a -> tv ts a i = tv ts a j -> i = j.
Proof. intros H. apply (tccw_distinct ts a H). Qed.
(** triangles on opposite sides of an edge have different apexes, and share only that edge *)
Lemma opposed_sym ts a i b j : opposed ts a i b j -> opposed ts b j a i.
Proof. intros [H1 H2]. split; auto. Qed.
Lemma opposed_apex ts a i b j : tccw ts a -> tccw ts b -> opposed ts a i b j -> tv ts a i <> tv ts b j.
Proof.
  rewrite (tccw_at ts a i), (tccw_at ts b j). intros H1 H2 [E1 E2] E. rewrite E1, E2, E in H1.
  unfold ccw3 in *. rewrite orient_swap' in H1. lia.
Qed.
Lemma opposed_idx ts a i b j k : tccw ts a -> tccw ts b -> opposed ts a i b j -> opposed ts a i b k -> k = j.
Proof.
  intros H1 H2 [E1 E2] [E3 E4]. assert (X : tv ts b (prv j) = tv ts b (prv k)) by congruence.
  apply tv_inj in X; auto. destruct j, k; simpl in X; congruence.
Qed.
Lemma opposed_idx_l ts a i b j k : tccw ts a -> tccw ts b -> opposed ts a i b j -> opposed ts a k b j -> k = i.
Proof. intros H1 H2 H3 H4. apply opposed_sym in H3, H4. eapply opposed_idx; [| |exact H3|exact H4]; auto. Qed.
(** ... and share no other edge *)
Lemma opposed_once ts a i b j i' j' : tccw ts a -> tccw ts b -> opposed ts a i b j -> opposed ts a i' b j' -> i' = i /\ j' = j.
Proof.
  intros H1 H2 H3 H4.
  destruct (ix_eq_dec i' i) as [->|C]; [split; auto; eapply opposed_idx; [| |exact H3|exact H4]; auto|].
  destruct (ix_eq_dec j' j) as [->|D]; [exfalso; apply C; eapply opposed_idx_l; [| |exact H3|exact H4]; auto|].
  assert (C' : i' = nxt i \/ i' = prv i) by (destruct i, i'; auto; destruct C; reflexivity).
  assert (D' : j' = nxt j \/ j' = prv j) by (destruct j, j'; auto; destruct D; reflexivity).
  clear C D. rename C' into C. rename D' into D.
  exfalso. pose proof (opposed_apex _ _ _ _ _ H1 H2 H3) as NA. destruct H3 as [E1 E2], H4 as [E3 E4].
  destruct C as [->| ->], D as [->| ->]; rewrite ?nxt_nxt, ?prv_prv, ?nxt_prv, ?prv_nxt in *; try congruence.
  - assert (X : tv ts a (nxt i) = tv ts a i) by congruence.
    apply tv_inj in X; auto. destruct i; discriminate.
  - assert (X : tv ts a (prv i) = tv ts a i) by congruence.
    apply tv_inj in X; auto. destruct i; discriminate.
Qed.
Lemma not_self ts a i j : tccw ts a -> ~ opposed ts a i a j.
Proof.
  intros H [E1 E2]. apply tv_inj in E1, E2; auto. destruct i, j; discriminate.
Qed.
Lemma mesh_dist ts a : mesh ts -> a < length ts -> distinct (tri_at ts a).
Proof. intros M L. apply tccw_distinct. apply M; auto. Qed.

End Spec.

(** ** linking two triangles along an edge (mark_neighbor) *)
Definition relink (t : InnerTriangle) (i : ix) (n : option nat) (c : bool) : InnerTriangle :=
  tri_set_delaunay (tri_set_constrained (with_neighbors t (set3 (t_neighbors t) i n)) i c) i false.
Lemma relink_V t i n c k : V (relink t i n c) k = V t k.
Proof. reflexivity. Qed.
Lemma relink_NB t i n c k : NB (relink t i n c) k = if ix_eq_dec i k then n else NB t k.
Proof. unfold NB, relink. simpl. apply get3_set3. Qed.
Lemma relink_con t i n c k : tri_is_constrained (relink t i n c) k = if ix_eq_dec i k then c else tri_is_constrained t k.
Proof.
  unfold relink, tri_is_constrained, tri_set_delaunay, tri_set_constrained. simpl. rewrite !get3_set3.
  destruct (ix_eq_dec i k) as [->|Ne].
  - rewrite con_set_del. destruct (ix_eq_dec k k); [|congruence]. apply con_set_con.
  - reflexivity.
Qed.
Lemma relink_del t i n c k : tri_is_delaunay (relink t i n c) k = if ix_eq_dec i k then false else tri_is_delaunay t k.
Proof.
  unfold relink, tri_is_delaunay, tri_set_delaunay, tri_set_constrained. simpl. rewrite !get3_set3.
  destruct (ix_eq_dec i k) as [->|Ne].
  - rewrite del_set_del. reflexivity.
  - reflexivity.
Qed.
Lemma relink_int t i n c : t_interior (relink t i n c) = t_interior t.
Proof. reflexivity. Qed.

Definition link (ts : TriangleStore) (a : nat) (i : ix) (b : nat) (j : ix) : TriangleStore :=
  let c := tc ts a i || tc ts b j in
  list_set (list_set ts a (relink (tri_at ts a) i (Some b) c)) b (relink (tri_at ts b) j (Some a) c).

Lemma link_length ts a i b j : length (link ts a i b j) = length ts.
Proof. unfold link. rewrite !list_set_length. reflexivity. Qed.
Lemma link_at ts a i b j c : a < length ts -> b < length ts ->
  tri_at (link ts a i b j) c =
    if b =? c then relink (tri_at ts b) j (Some a) (tc ts a i || tc ts b j)
    else if a =? c then relink (tri_at ts a) i (Some b) (tc ts a i || tc ts b j) else tri_at ts c.
Proof.
  intros La Lb. unfold link. rewrite tri_at_set by (rewrite list_set_length; auto).
  destruct (b =? c); auto. apply tri_at_set; auto.
Qed.
Definition pos_eqb (a : nat) (i : ix) (b : nat) (j : ix) : bool := (a =? b) && if ix_eq_dec i j then true else false.
Lemma pos_eqb_spec a i b j : reflect (a = b /\ i = j) (pos_eqb a i b j).
Proof.
  unfold pos_eqb. destruct (Nat.eqb_spec a b), (ix_eq_dec i j); constructor; tauto.
Qed.
Lemma link_tv ts a i b j c k : a < length ts -> b < length ts -> tv (link ts a i b j) c k = tv ts c k.
Proof.
  intros La Lb. unfold tv. rewrite link_at by auto. destruct (Nat.eqb_spec b c) as [<-|]; [reflexivity|].
  destruct (Nat.eqb_spec a c) as [<-|]; reflexivity.
Qed.
Lemma link_tn ts a i b j c k : a < length ts -> b < length ts -> a <> b ->
  tn (link ts a i b j) c k = if pos_eqb a i c k then Some b else if pos_eqb b j c k then Some a else tn ts c k.
Proof.
  intros La Lb Ne. unfold tn, pos_eqb. rewrite link_at by auto.
  destruct (Nat.eqb_spec b c) as [Ebc|]; destruct (Nat.eqb_spec a c) as [Eac|]; try congruence; try (subst c); rewrite ?relink_NB; simpl; auto;
    destruct (ix_eq_dec _ _); auto.
Qed.
Lemma link_tc ts a i b j c k : a < length ts -> b < length ts -> a <> b ->
  tc (link ts a i b j) c k = if pos_eqb a i c k || pos_eqb b j c k then tc ts a i || tc ts b j else tc ts c k.
Proof.
  intros La Lb Ne. unfold tc at 1, pos_eqb. rewrite link_at by auto.
  destruct (Nat.eqb_spec b c) as [Ebc|]; destruct (Nat.eqb_spec a c) as [Eac|]; try congruence; try (subst c); rewrite ?relink_con; simpl; auto;
    destruct (ix_eq_dec _ _); auto.
Qed.
Lemma link_td ts a i b j c k : a < length ts -> b < length ts -> a <> b ->
  td (link ts a i b j) c k = if pos_eqb a i c k || pos_eqb b j c k then false else td ts c k.
Proof.
  intros La Lb Ne. unfold td, pos_eqb. rewrite link_at by auto.
  destruct (Nat.eqb_spec b c) as [Ebc|]; destruct (Nat.eqb_spec a c) as [Eac|]; try congruence; try (subst c); rewrite ?relink_del; simpl; auto;
    destruct (ix_eq_dec _ _); auto.
Qed.
Lemma link_int ts a i b j c : a < length ts -> b < length ts -> tint (link ts a i b j) c = tint ts c.
Proof.
  intros La Lb. unfold tint. rewrite link_at by auto. destruct (Nat.eqb_spec b c) as [<-|]; [reflexivity|].
  destruct (Nat.eqb_spec a c) as [<-|]; reflexivity.
Qed.

Lemma mark_two dbg a b lt rt i j : distinct lt -> distinct rt ->
  V lt (nxt i) = V rt (prv j) -> V lt (prv i) = V rt (nxt j) -> V lt i <> V rt j ->
  mark_neighbor_for_two_mut dbg a b lt rt =
   Done (relink lt i b (tri_is_constrained lt i || tri_is_constrained rt j),
         relink rt j a (tri_is_constrained lt i || tri_is_constrained rt j)).
Proof.
  intros D1 D2 E1 E2 E3. unfold mark_neighbor_for_two_mut. rewrite (common_edge_index_V lt rt i j); auto.
  unfold dedge. simpl. congruence.
Qed.
Section Mark.
Variable zc : nat -> zpt.
Lemma mark_cells dbg s ts a i b j : a < length ts -> b < length ts -> tccw zc ts a -> tccw zc ts b -> opposed ts a i b j ->
  mark_neighbor_cells dbg s ts (Some a) (Some b) = Done (link ts a i b j).
Proof.
  intros La Lb Ca Cb O. pose proof (opposed_apex zc _ _ _ _ _ Ca Cb O) as Ap. destruct O as [O1 O2].
  unfold mark_neighbor_cells, ts_get_unchecked_at, get_unchecked. rewrite !nth_error_at by auto. cbn [rbind].
  rewrite (mark_two dbg _ _ _ _ i j); auto using (tccw_distinct zc).
Qed.
Lemma mark_ok dbg ts a i b j : a < length ts -> b < length ts -> tccw zc ts a -> tccw zc ts b -> opposed ts a i b j ->
  mark_neighbor dbg ts (Some a) (Some b) = Done (link ts a i b j).
Proof.
  intros La Lb Ca Cb O. unfold mark_neighbor, get_mut_two_ok.
  assert (a <> b) by (intros ->; eapply (not_self zc); eauto).
  rewrite (proj2 (Nat.eqb_neq a b)), (proj2 (Nat.ltb_lt _ _) La), (proj2 (Nat.ltb_lt _ _) Lb) by auto. simpl.
  apply mark_cells; auto.
Qed.
End Mark.

Arguments tccw_at {zc ts a} i.
Arguments ccw3_distinct {zc x y z} _.
Arguments tccw_distinct {zc ts a} _.
Arguments tv_inj {zc ts a i j} _ _.
Arguments opposed_apex {zc ts a i b j} _ _ _ _.
Arguments opposed_idx {zc ts a i b j k} _ _ _ _.
Arguments opposed_idx_l {zc ts a i b j k} _ _ _ _.
Arguments opposed_once {zc ts a i b j i' j'} _ _ _ _.
Arguments not_self {zc ts a i j} _ _.
Arguments mesh_dist {N zc ts a} _ _.
Arguments m_range {N zc ts} _ a i _.
Arguments m_ccw {N zc ts} _ a _.
Arguments m_adj {N zc ts} _ a i b _ _.
Arguments opposed_sym {ts a i b j} _.
Arguments mark_cells {zc} dbg s {ts a i b j} _ _ _ _ _.
Arguments mark_ok {zc} dbg {ts a i b j} _ _ _ _ _.

Lemma paired_sym {ts a i b j} : paired ts a i b j -> paired ts b j a i.
Proof. intros (H1 & H2 & H3 & H4 & H5). repeat split; auto; destruct H5; auto. Qed.
Lemma paired_unique {zc ts a i b j b' j'} : tccw zc ts a -> tccw zc ts b -> paired ts a i b j -> paired ts a i b' j' -> b' = b /\ j' = j.
Proof.
  intros Ca Cb (H1 & H2 & H3 & H4 & H5) (H1' & H2' & H3' & H4' & H5').
  assert (b' = b) by congruence. subst b'. split; auto. eapply opposed_idx; [exact Ca|exact Cb|exact H5|exact H5'].
Qed.
