(** * Rotate: what rotating a triangle pair does to a consistent mesh *)
From Coq Require Import List Arith Bool Lia ZArith.
From Verif Require Import Base Num Shape ShapeSpec Points Triangles Front Sweeper Monad Lists Exact Geom Mesh.
Import ListNotations.

(** ** linking several disjoint pairs of positions *)
Definition pos := (nat * ix)%type.
Definition pos_dec (P Q : pos) : {P = Q} + {P <> Q}.
Proof. decide equality; [apply ix_eq_dec|apply Nat.eq_dec]. Qed.
Definition ptv ts (P : pos) := tv ts (fst P) (snd P).
Definition ptn ts (P : pos) := tn ts (fst P) (snd P).
Definition ptc ts (P : pos) := tc ts (fst P) (snd P).
Definition ptd ts (P : pos) := td ts (fst P) (snd P).
Definition link1 (ts : TriangleStore) (pq : pos * pos) : TriangleStore :=
  link ts (fst (fst pq)) (snd (fst pq)) (fst (snd pq)) (snd (snd pq)).
Definition links (ts : TriangleStore) (l : list (pos * pos)) : TriangleStore := fold_left link1 l ts.
Definition flat (l : list (pos * pos)) : list pos := flat_map (fun pq => [fst pq; snd pq]) l.
Definition linkable (n : nat) (l : list (pos * pos)) : Prop :=
  NoDup (flat l) /\ Forall (fun pq => fst (fst pq) < n /\ fst (snd pq) < n /\ fst (fst pq) <> fst (snd pq)) l.

Lemma pos_eqb_P P c k : pos_eqb (fst P) (snd P) c k = if pos_dec P (c, k) then true else false.
Proof.
  destruct P as [a i]. simpl. destruct (pos_eqb_spec a i c k) as [[E1 E2]|Ne]; destruct (pos_dec (a, i) (c, k)) as [E|E]; auto.
  - destruct E; congruence.
  - injection E as E1 E2. tauto.
Qed.

Lemma link1_spec ts P Q : fst P < length ts -> fst Q < length ts -> fst P <> fst Q ->
  length (link1 ts (P, Q)) = length ts /\
  (forall c k, tv (link1 ts (P, Q)) c k = tv ts c k) /\
  (forall c, tint (link1 ts (P, Q)) c = tint ts c) /\
  (forall R, ptn (link1 ts (P, Q)) R = if pos_dec P R then Some (fst Q) else if pos_dec Q R then Some (fst P) else ptn ts R) /\
  (forall R, ptc (link1 ts (P, Q)) R = if pos_dec P R then ptc ts P || ptc ts Q else if pos_dec Q R then ptc ts P || ptc ts Q else ptc ts R) /\
  (forall R, ptd (link1 ts (P, Q)) R = if pos_dec P R then false else if pos_dec Q R then false else ptd ts R).
Proof.
  intros LP LQ Ne. unfold link1. simpl. split; [apply link_length|].
  split; [intros; apply link_tv; auto|]. split; [intros; apply link_int; auto|].
  split; [|split]; intros [c k]; unfold ptn, ptc, ptd; cbn [fst snd]; [rewrite link_tn by auto|rewrite link_tc by auto|rewrite link_td by auto];
    rewrite !pos_eqb_P; destruct (pos_dec P (c, k)), (pos_dec Q (c, k)); reflexivity.
Qed.

Lemma links_spec l : forall ts, linkable (length ts) l ->
  length (links ts l) = length ts /\
  (forall c k, tv (links ts l) c k = tv ts c k) /\
  (forall c, tint (links ts l) c = tint ts c) /\
  (forall P Q, In (P, Q) l -> ptn (links ts l) P = Some (fst Q) /\ ptn (links ts l) Q = Some (fst P) /\
     ptc (links ts l) P = ptc ts P || ptc ts Q /\ ptc (links ts l) Q = ptc ts P || ptc ts Q /\
     ptd (links ts l) P = false /\ ptd (links ts l) Q = false) /\
  (forall R, ~ In R (flat l) -> ptn (links ts l) R = ptn ts R /\ ptc (links ts l) R = ptc ts R /\ ptd (links ts l) R = ptd ts R).
Proof.
  induction l as [|[P Q] l IH]; intros ts [ND F]; simpl.
  { repeat split; auto; contradiction. }
  inversion F as [|? ? [LP [LQ Ne]] F']; subst. simpl in LP, LQ, Ne. simpl in ND.
  inversion ND as [|? ? N1 ND1]; subst. inversion ND1 as [|? ? N2 ND2]; subst.
  destruct (link1_spec ts P Q LP LQ Ne) as (A1 & A2 & A3 & A4 & A5 & A6).
  destruct (IH (link1 ts (P, Q))) as (B1 & B2 & B3 & B4 & B5); [split; [auto|exact (eq_ind_r (fun n => Forall (fun pq => fst (fst pq) < n /\ fst (snd pq) < n /\ fst (fst pq) <> fst (snd pq)) l) F' A1)]|].
  assert (NPQ : P <> Q) by (intros ->; apply N1; left; auto).
  assert (NP : ~ In P (flat l)) by (intro; apply N1; right; auto).
  split; [exact (eq_trans B1 A1)|]. split; [intros; exact (eq_trans (B2 _ _) (A2 _ _))|]. split; [intros; exact (eq_trans (B3 _) (A3 _))|]. split.
  - intros P' Q' [E|In'].
    + injection E as <- <-. destruct (B5 P NP) as (X1 & X2 & X3), (B5 Q N2) as (Y1 & Y2 & Y3).
      rewrite X1, X2, X3, Y1, Y2, Y3, !A4, !A5, !A6.
      destruct (pos_dec P P), (pos_dec Q Q), (pos_dec P Q); try congruence. repeat split; auto.
    + assert (IP : In P' (flat l)) by (apply in_flat_map; eexists; split; [eauto|simpl; auto]).
      assert (IQ : In Q' (flat l)) by (apply in_flat_map; eexists; split; [eauto|simpl; auto]).
      destruct (B4 P' Q' In') as (X1 & X2 & X3 & X4 & X5 & X6). rewrite X1, X2, X3, X4, X5, X6, !A5.
      destruct (pos_dec P P'), (pos_dec Q P'), (pos_dec P Q'), (pos_dec Q Q'); subst; try contradiction. repeat split; auto.
  - intros R NR. destruct (B5 R) as (X1 & X2 & X3); [intro; apply NR; auto|]. rewrite X1, X2, X3, A4, A5, A6.
    destruct (pos_dec P R), (pos_dec Q R); subst; try (exfalso; apply NR; simpl; auto; fail). auto.
Qed.

(** ** the store after the two triangles themselves were rewritten *)
Definition flip_t (t u : InnerTriangle) (i j : ix) (b : nat) : InnerTriangle :=
  relink (clear_neighbors
    (with_attrs (rotated t i (V u j)) (set3 (set3 (t_attrs t) (prv i) (AT t (nxt i))) (nxt i) (AT u (prv j)))))
    i (Some b) (tri_is_constrained t i || tri_is_constrained u j).
Definition flip_u (t u : InnerTriangle) (i j : ix) (a : nat) : InnerTriangle :=
  relink (clear_neighbors
    (with_attrs (rotated u j (V t i)) (set3 (set3 (t_attrs u) (nxt j) (AT t (prv i))) (prv j) (AT u (nxt j)))))
    j (Some a) (tri_is_constrained t i || tri_is_constrained u j).
Definition flip0 (ts : TriangleStore) (a : nat) (i : ix) (b : nat) (j : ix) : TriangleStore :=
  list_set (list_set ts a (flip_t (tri_at ts a) (tri_at ts b) i j b)) b (flip_u (tri_at ts a) (tri_at ts b) i j a).

(** where an outer edge of the pair was before the flip *)
Definition side (ts : TriangleStore) (a : nat) (i : ix) (o : option pos) : Prop :=
  match o with None => tn ts a i = None | Some (b, j) => paired ts a i b j end.
Definition opair (P : pos) (o : option pos) : list (pos * pos) := match o with None => [] | Some Q => [(P, Q)] end.
(** o1..o4: what is across the outer edges p-x, y-p, op-y, x-op *)
Definition flip_links (a : nat) (i : ix) (b : nat) (j : ix) (o1 o2 o3 o4 : option pos) : list (pos * pos) :=
  opair (a, prv i) o2 ++ opair (a, nxt i) o3 ++ opair (b, nxt j) o1 ++ opair (b, prv j) o4.
Definition flipped (ts : TriangleStore) (a : nat) (i : ix) (b : nat) (j : ix) (o1 o2 o3 o4 : option pos) : TriangleStore :=
  links (flip0 ts a i b j) (flip_links a i b j o1 o2 o3 o4).

Section F0.
Variables (ts : TriangleStore) (a : nat) (i : ix) (b : nat) (j : ix).
Hypotheses (La : a < length ts) (Lb : b < length ts) (Ne : a <> b).
Lemma flip0_length : length (flip0 ts a i b j) = length ts.
Proof. unfold flip0. rewrite !list_set_length. reflexivity. Qed.
Lemma flip0_at c : tri_at (flip0 ts a i b j) c =
  if c =? a then flip_t (tri_at ts a) (tri_at ts b) i j b
  else if c =? b then flip_u (tri_at ts a) (tri_at ts b) i j a else tri_at ts c.
Proof using La Lb Ne.
  unfold flip0. rewrite tri_at_set by (rewrite list_set_length; auto). rewrite tri_at_set by auto.
  destruct (Nat.eqb_spec b c), (Nat.eqb_spec c a), (Nat.eqb_spec a c), (Nat.eqb_spec c b); subst; try congruence; reflexivity.
Qed.
Lemma flip0_other c k : c <> a -> c <> b ->
  tv (flip0 ts a i b j) c k = tv ts c k /\ tn (flip0 ts a i b j) c k = tn ts c k /\
  tc (flip0 ts a i b j) c k = tc ts c k /\ td (flip0 ts a i b j) c k = td ts c k.
Proof using La Lb Ne.
  intros H1 H2. unfold tv, tn, tc, td. rewrite flip0_at.
  rewrite (proj2 (Nat.eqb_neq c a)), (proj2 (Nat.eqb_neq c b)) by auto. auto.
Qed.
Lemma flip0_int c : tint (flip0 ts a i b j) c = tint ts c.
Proof using La Lb Ne.
  unfold tint. rewrite flip0_at. destruct (Nat.eqb_spec c a) as [->|]; [reflexivity|].
  destruct (Nat.eqb_spec c b) as [->|]; reflexivity.
Qed.
Lemma flip0_a :
  let ts' := flip0 ts a i b j in
  (tv ts' a i = tv ts a (prv i) /\ tv ts' a (nxt i) = tv ts a i /\ tv ts' a (prv i) = tv ts b j) /\
  (tn ts' a i = Some b /\ tn ts' a (nxt i) = None /\ tn ts' a (prv i) = None) /\
  (tc ts' a i = tc ts a i || tc ts b j /\ tc ts' a (nxt i) = tc ts b (prv j) /\ tc ts' a (prv i) = tc ts a (nxt i)) /\
  (td ts' a i = false /\ td ts' a (nxt i) = td ts b (prv j) /\ td ts' a (prv i) = td ts a (nxt i)).
Proof using La Lb Ne.
  cbv zeta. unfold tv, tn, tc, td. rewrite flip0_at, Nat.eqb_refl. unfold flip_t.
  rewrite !relink_V, !relink_NB, !relink_con, !relink_del.
  split; [|split; [|split]].
  - destruct (rotated_V (tri_at ts a) i (V (tri_at ts b) j)) as (X1 & X2 & X3).
    change (V (clear_neighbors (with_attrs ?t ?x))) with (V t). auto.
  - destruct i; simpl; auto.
  - unfold tri_is_constrained, AT. destruct (tri_at ts a) as [? ? [? ? ?] ?]. destruct i; simpl; auto.
  - unfold tri_is_delaunay, AT. destruct (tri_at ts a) as [? ? [? ? ?] ?]. destruct i; simpl; auto.
Qed.
Lemma flip0_b :
  let ts' := flip0 ts a i b j in
  (tv ts' b j = tv ts b (prv j) /\ tv ts' b (nxt j) = tv ts b j /\ tv ts' b (prv j) = tv ts a i) /\
  (tn ts' b j = Some a /\ tn ts' b (nxt j) = None /\ tn ts' b (prv j) = None) /\
  (tc ts' b j = tc ts a i || tc ts b j /\ tc ts' b (nxt j) = tc ts a (prv i) /\ tc ts' b (prv j) = tc ts b (nxt j)) /\
  (td ts' b j = false /\ td ts' b (nxt j) = td ts a (prv i) /\ td ts' b (prv j) = td ts b (nxt j)).
Proof using La Lb Ne.
  cbv zeta. unfold tv, tn, tc, td. rewrite flip0_at, Nat.eqb_refl. destruct (Nat.eqb_spec b a); [congruence|]. unfold flip_u.
  rewrite !relink_V, !relink_NB, !relink_con, !relink_del.
  split; [|split; [|split]].
  - destruct (rotated_V (tri_at ts b) j (V (tri_at ts a) i)) as (X1 & X2 & X3).
    change (V (clear_neighbors (with_attrs ?t ?x))) with (V t). auto.
  - destruct j; simpl; auto.
  - unfold tri_is_constrained, AT. destruct (tri_at ts b) as [? ? [? ? ?] ?]. destruct j; simpl; auto.
  - unfold tri_is_delaunay, AT. destruct (tri_at ts b) as [? ? [? ? ?] ?]. destruct j; simpl; auto.
Qed.
End F0.

(** ** the flip on a consistent mesh *)
Definition src (a : nat) (i : ix) (b : nat) (j : ix) (P : pos) : pos :=
  if pos_dec P (a, nxt i) then (b, prv j) else if pos_dec P (a, prv i) then (a, nxt i)
  else if pos_dec P (b, nxt j) then (a, prv i) else if pos_dec P (b, prv j) then (b, nxt j) else P.
Definition dst (a : nat) (i : ix) (b : nat) (j : ix) (P : pos) : pos :=
  if pos_dec P (b, prv j) then (a, nxt i) else if pos_dec P (a, nxt i) then (a, prv i)
  else if pos_dec P (a, prv i) then (b, nxt j) else if pos_dec P (b, nxt j) then (b, prv j) else P.
Definition ppaired ts (P Q : pos) := paired ts (fst P) (snd P) (fst Q) (snd Q).
(** the edge at P carries the constrained mark on at least one side *)
Definition marked ts (P : pos) : Prop := ptc ts P = true \/ exists Q, ppaired ts P Q /\ ptc ts Q = true.

Lemma flat_unique l P Q P' Q' : NoDup (flat l) -> In (P, Q) l -> In (P', Q') l ->
  (P' = P /\ Q' = Q) \/ (P' <> P /\ P' <> Q /\ Q' <> P /\ Q' <> Q).
Proof.
  induction l as [|[X Y] l IH]; [contradiction|]. intros ND H1 H2. simpl in ND.
  inversion ND as [|? ? N1 ND1]; subst. inversion ND1 as [|? ? N2 ND2]; subst. simpl in N1.
  assert (G : forall A B, In (A, B) l -> In A (flat l) /\ In B (flat l)).
  { intros A B H. split; apply in_flat_map; exists (A, B); simpl; auto. }
  destruct H1 as [E1|H1], H2 as [E2|H2].
  - left. split; congruence.
  - right. injection E1 as <- <-. apply G in H2 as [A B]. repeat split; intros ->; tauto.
  - right. injection E2 as <- <-. apply G in H1 as [A B]. repeat split; intros <-; tauto.
  - auto.
Qed.

Section Flip.
Variables (N : nat) (zc : nat -> zpt) (ts : TriangleStore) (a : nat) (i : ix) (b : nat) (j : ix).
Hypotheses (M : mesh N zc ts) (PR : paired ts a i b j).
Let p := tv ts a i. Let x := tv ts a (nxt i). Let y := tv ts a (prv i). Let q := tv ts b j.
Hypotheses (CX1 : ccw3 zc y p q) (CX2 : ccw3 zc x q p).
Variables o1 o2 o3 o4 : option pos.
Hypotheses (S1 : side ts a (prv i) o1) (S2 : side ts a (nxt i) o2) (S3 : side ts b (prv j) o3) (S4 : side ts b (nxt j) o4).

Lemma flip_La : a < length ts. Proof using PR. apply PR. Qed.
Lemma flip_Lb : b < length ts. Proof using PR. apply PR. Qed.
Lemma flip_Ca : tccw zc ts a. Proof using PR M. apply M, flip_La. Qed.
Lemma flip_Cb : tccw zc ts b. Proof using PR M. apply M, flip_Lb. Qed.
Lemma flip_op : opposed ts a i b j. Proof using PR. apply PR. Qed.
Lemma flip_ne : a <> b.
Proof using PR M. intro E. pose proof flip_op as O. rewrite <- E in O. apply (not_self flip_Ca O). Qed.
Lemma flip_y : tv ts b (nxt j) = y. Proof using PR. symmetry. apply flip_op. Qed.
Lemma flip_x : tv ts b (prv j) = x. Proof using PR. symmetry. apply flip_op. Qed.
Lemma flip_pq : p <> q. Proof using PR M. apply (opposed_apex flip_Ca flip_Cb flip_op). Qed.
Lemma flip_dist : p <> x /\ x <> y /\ p <> y /\ q <> x /\ q <> y.
Proof using PR M.
  pose proof (ccw3_distinct (proj1 (tccw_at i) flip_Ca)) as (A1 & A2 & A3).
  pose proof (ccw3_distinct (proj1 (tccw_at j) flip_Cb)) as (B1 & B2 & B3).
  pose proof flip_y as Y. pose proof flip_x as X. unfold p, q, x, y in *. repeat split; congruence.
Qed.

(** an outer neighbour is neither a nor b *)
Lemma outer_a k c l : k <> i -> paired ts a k c l -> c <> a /\ c <> b.
Proof using PR M.
  intros Nk (H1 & H2 & H3 & H4 & H5). split; intros ->.
  - apply (not_self flip_Ca H5).
  - destruct (opposed_once flip_Ca flip_Cb flip_op H5). auto.
Qed.
Lemma outer_b k c l : k <> j -> paired ts b k c l -> c <> a /\ c <> b.
Proof using PR M.
  intros Nk (H1 & H2 & H3 & H4 & H5). split; intros ->.
  - destruct (opposed_once flip_Ca flip_Cb flip_op (opposed_sym H5)). auto.
  - apply (not_self flip_Cb H5).
Qed.
Lemma on1 c l : o1 = Some (c, l) -> c <> a /\ c <> b /\ c < length ts /\ tccw zc ts c /\ tv ts c (prv l) = p /\ tv ts c (nxt l) = x.
Proof using PR M S1.
  intros E. rewrite E in S1. simpl in S1. destruct (outer_a _ _ _ (prv_neq i) S1) as [X1 X2].
  destruct S1 as (H1 & H2 & H3 & H4 & H5 & H6). rewrite nxt_prv in H5. rewrite prv_prv in H6.
  repeat split; auto. apply M; auto.
Qed.
Lemma on2 c l : o2 = Some (c, l) -> c <> a /\ c <> b /\ c < length ts /\ tccw zc ts c /\ tv ts c (prv l) = y /\ tv ts c (nxt l) = p.
Proof using PR M S2.
  intros E. rewrite E in S2. simpl in S2. destruct (outer_a _ _ _ (nxt_neq i) S2) as [X1 X2].
  destruct S2 as (H1 & H2 & H3 & H4 & H5 & H6). rewrite nxt_nxt in H5. rewrite prv_nxt in H6.
  repeat split; auto. apply M; auto.
Qed.
Lemma on3 c l : o3 = Some (c, l) -> c <> a /\ c <> b /\ c < length ts /\ tccw zc ts c /\ tv ts c (prv l) = q /\ tv ts c (nxt l) = y.
Proof using PR M S3.
  intros E. rewrite E in S3. simpl in S3. destruct (outer_b _ _ _ (prv_neq j) S3) as [X1 X2].
  destruct S3 as (H1 & H2 & H3 & H4 & H5 & H6). rewrite nxt_prv in H5. rewrite prv_prv in H6.
  repeat split; auto. apply M; auto. rewrite <- H6. apply flip_y.
Qed.
Lemma on4 c l : o4 = Some (c, l) -> c <> a /\ c <> b /\ c < length ts /\ tccw zc ts c /\ tv ts c (prv l) = x /\ tv ts c (nxt l) = q.
Proof using PR M S4.
  intros E. rewrite E in S4. simpl in S4. destruct (outer_b _ _ _ (nxt_neq j) S4) as [X1 X2].
  destruct S4 as (H1 & H2 & H3 & H4 & H5 & H6). rewrite nxt_nxt in H5. rewrite prv_nxt in H6.
  repeat split; auto. apply M; auto. rewrite <- H5. apply flip_x.
Qed.
(** the outer neighbours are pairwise different *)
Lemma tri_order c k l : tccw zc ts c -> tv ts c (prv k) = tv ts c (nxt l) -> l = nxt k.
Proof. intros C E. apply (tv_inj C) in E. destruct k, l; simpl in *; congruence. Qed.
Lemma n12 c l c' l' : o1 = Some (c, l) -> o2 = Some (c', l') -> c <> c'.
Proof.
  intros E1 E2 <-. rewrite E1 in S1. rewrite E2 in S2. simpl in *. destruct S1 as (_ & L & _ & _ & O1), S2 as (_ & _ & _ & _ & O2).
  destruct (opposed_once flip_Ca (m_ccw M _ L) O1 O2) as [X _]. destruct i; discriminate.
Qed.
Lemma n34 c l c' l' : o3 = Some (c, l) -> o4 = Some (c', l') -> c <> c'.
Proof.
  intros E1 E2 <-. rewrite E1 in S3. rewrite E2 in S4. simpl in *. destruct S3 as (_ & L & _ & _ & O1), S4 as (_ & _ & _ & _ & O2).
  destruct (opposed_once flip_Cb (m_ccw M _ L) O1 O2) as [X _]. destruct j; discriminate.
Qed.
Lemma n23 c l c' l' : o2 = Some (c, l) -> o3 = Some (c', l') -> c <> c'.
Proof.
  intros E1 E2 <-. apply on2 in E1 as (_ & _ & _ & C & A1 & A2). apply on3 in E2 as (_ & _ & _ & _ & B1 & B2).
  assert (l' = nxt l) by (apply (tri_order c l l' C); congruence). subst l'. rewrite nxt_nxt, prv_nxt in *.
  apply (tccw_at l) in C. rewrite A1, A2, B1 in C. unfold ccw3 in *.
  pose proof (orient_swap' (zc y) (zc p) (zc q)) as E1. pose proof (orient_rot (zc y) (zc q) (zc p)) as E2.
  pose proof (orient_rot' (zc y) (zc q) (zc p)). lia.
Qed.
Lemma n14 c l c' l' : o1 = Some (c, l) -> o4 = Some (c', l') -> c <> c'.
Proof.
  intros E1 E2 <-. apply on1 in E1 as (_ & _ & _ & C & A1 & A2). apply on4 in E2 as (_ & _ & _ & _ & B1 & B2).
  assert (l = nxt l') by (apply (tri_order c l' l C); congruence). subst l. rewrite nxt_nxt, prv_nxt in *.
  apply (tccw_at l') in C. rewrite A1, B1, B2 in C. unfold ccw3 in *.
  pose proof (orient_swap' (zc p) (zc q) (zc x)) as E1. pose proof (orient_rot (zc x) (zc q) (zc p)) as E2.
  pose proof (orient_rot' (zc x) (zc q) (zc p)). pose proof (orient_rot (zc p) (zc q) (zc x)). lia.
Qed.
Lemma four_verts c k1 k2 : tccw zc ts c -> forall w1 w2 w3 w4, tv ts c (prv k1) = w1 -> tv ts c (nxt k1) = w2 -> tv ts c (prv k2) = w3 -> tv ts c (nxt k2) = w4 ->
  w1 <> w3 -> w1 <> w4 -> w2 <> w3 -> w2 <> w4 -> False.
Proof. intros C w1 w2 w3 w4 E1 E2 E3 E4. subst. destruct k1, k2; simpl; congruence. Qed.
Lemma n13 c l c' l' : o1 = Some (c, l) -> o3 = Some (c', l') -> c <> c'.
Proof.
  intros E1 E2 <-. apply on1 in E1 as (_ & _ & _ & C & A1 & A2). apply on3 in E2 as (_ & _ & _ & _ & B1 & B2).
  destruct flip_dist as (D1 & D2 & D3 & D4 & D5). pose proof flip_pq.
  eapply (four_verts c l l' C); [exact A1|exact A2|exact B1|exact B2|..]; congruence.
Qed.
Lemma n24 c l c' l' : o2 = Some (c, l) -> o4 = Some (c', l') -> c <> c'.
Proof.
  intros E1 E2 <-. apply on2 in E1 as (_ & _ & _ & C & A1 & A2). apply on4 in E2 as (_ & _ & _ & _ & B1 & B2).
  destruct flip_dist as (D1 & D2 & D3 & D4 & D5). pose proof flip_pq.
  eapply (four_verts c l l' C); [exact A1|exact A2|exact B1|exact B2|..]; congruence.
Qed.

Lemma flip_linkable : linkable (length ts) (flip_links a i b j o1 o2 o3 o4).
Proof.
  pose proof flip_ne as Nab. pose proof (nxt_prv_neq i) as Ni. pose proof (nxt_prv_neq j) as Nj.
  pose proof on1 as O1. pose proof on2 as O2. pose proof on3 as O3. pose proof on4 as O4.
  pose proof n12 as X12. pose proof n13 as X13. pose proof n14 as X14. pose proof n23 as X23. pose proof n24 as X24. pose proof n34 as X34.
  pose proof flip_La as La. pose proof flip_Lb as Lb.
  clear CX1 CX2 S1 S2 S3 S4 M PR. clearbody p q x y.
  unfold linkable, flip_links.
  destruct o1 as [[c1 l1]|]; [specialize (O1 _ _ eq_refl) as (A1 & A2 & A3 & _)|];
  (destruct o2 as [[c2 l2]|]; [specialize (O2 _ _ eq_refl) as (B1 & B2 & B3 & _)|]);
  (destruct o3 as [[c3 l3]|]; [specialize (O3 _ _ eq_refl) as (C1 & C2 & C3 & _)|]);
  (destruct o4 as [[c4 l4]|]; [specialize (O4 _ _ eq_refl) as (D1 & D2 & D3 & _)|]);
  repeat match goal with X : forall c l c' l', Some _ = Some (c, l) -> Some _ = Some (c', l') -> _ |- _ =>
    specialize (X _ _ _ _ eq_refl eq_refl) | X : forall c l c' l', _ = _ -> _ |- _ => clear X end;
  simpl; (split; [|repeat constructor; simpl; auto]);
  repeat (apply NoDup_cons; [intro Hin; simpl in Hin; repeat destruct Hin as [Hin|Hin]; try contradiction; injection Hin; intros; congruence|]);
  apply NoDup_nil.
Qed.

Let L := flip_links a i b j o1 o2 o3 o4.
Let ts0 := flip0 ts a i b j.
Let ts' := flipped ts a i b j o1 o2 o3 o4.

Lemma flip_len : length ts' = length ts.
Proof. destruct (links_spec L ts0) as (A1 & _); [unfold ts0; rewrite flip0_length; exact flip_linkable|]. unfold ts', flipped. etransitivity; [exact A1|apply flip0_length]. Qed.
Lemma flip_spec_links :
  (forall c k, tv ts' c k = tv ts0 c k) /\ (forall c, tint ts' c = tint ts0 c) /\
  (forall P Q, In (P, Q) L -> ptn ts' P = Some (fst Q) /\ ptn ts' Q = Some (fst P) /\
     ptc ts' P = ptc ts0 P || ptc ts0 Q /\ ptc ts' Q = ptc ts0 P || ptc ts0 Q /\ ptd ts' P = false /\ ptd ts' Q = false) /\
  (forall R, ~ In R (flat L) -> ptn ts' R = ptn ts0 R /\ ptc ts' R = ptc ts0 R /\ ptd ts' R = ptd ts0 R).
Proof. destruct (links_spec L ts0) as (_ & X); [unfold ts0; rewrite flip0_length; exact flip_linkable|]. exact X. Qed.

Lemma in_L P Q : In (P, Q) L <->
  (P = (a, prv i) /\ o2 = Some Q) \/ (P = (a, nxt i) /\ o3 = Some Q) \/ (P = (b, nxt j) /\ o1 = Some Q) \/ (P = (b, prv j) /\ o4 = Some Q).
Proof.
  assert (G : forall R o, In (P, Q) (opair R o) <-> P = R /\ o = Some Q).
  { intros R [o|]; simpl; split; try tauto; try (intros [? ?]; discriminate).
    - intros [E|[]]. injection E as -> ->. auto.
    - intros [-> E]. injection E as ->. auto. }
  unfold L, flip_links. rewrite !in_app_iff, !G. tauto.
Qed.
Lemma in_flat R : In R (flat L) <-> exists P Q, In (P, Q) L /\ (R = P \/ R = Q).
Proof.
  unfold flat. rewrite in_flat_map. split.
  - intros ([P Q] & H & K). simpl in K. exists P, Q. split; auto. destruct K as [K|[K|[]]]; auto.
  - intros (P & Q & H & K). exists (P, Q). split; auto. simpl. destruct K; auto.
Qed.
(** the second component of a link is outside the pair *)
Lemma in_L_out P Q : In (P, Q) L -> fst Q <> a /\ fst Q <> b /\ fst Q < length ts.
Proof.
  rewrite in_L. destruct Q as [c l]. intros [[_ E]|[[_ E]|[[_ E]|[_ E]]]]; [apply on2 in E|apply on3 in E|apply on1 in E|apply on4 in E]; tauto.
Qed.

Lemma pos_cases P : P = (a, i) \/ P = (a, nxt i) \/ P = (a, prv i) \/ P = (b, j) \/ P = (b, nxt j) \/ P = (b, prv j) \/ (fst P <> a /\ fst P <> b).
Proof.
  destruct P as [c k]. simpl. destruct (Nat.eq_dec c a) as [->|Na]; [destruct (ix_cases i k) as [->|[->| ->]]; tauto|].
  destruct (Nat.eq_dec c b) as [->|Nb]; [destruct (ix_cases j k) as [->|[->| ->]]; tauto|tauto].
Qed.
Definition diag (P : pos) : Prop := P = (a, i) \/ P = (b, j).
Lemma src_an : src a i b j (a, nxt i) = (b, prv j). Proof. unfold src. destruct (pos_dec _ _); congruence. Qed.
Lemma src_ap : src a i b j (a, prv i) = (a, nxt i).
Proof. unfold src. pose proof (nxt_prv_neq i). repeat destruct (pos_dec _ _); congruence. Qed.
Lemma src_bn : src a i b j (b, nxt j) = (a, prv i).
Proof. unfold src. pose proof flip_ne. repeat destruct (pos_dec _ _); congruence. Qed.
Lemma src_bp : src a i b j (b, prv j) = (b, nxt j).
Proof. unfold src. pose proof flip_ne. pose proof (nxt_prv_neq j). repeat destruct (pos_dec _ _); congruence. Qed.
Lemma src_out P : fst P <> a -> fst P <> b -> src a i b j P = P.
Proof. intros. unfold src. repeat destruct (pos_dec _ _); subst; simpl in *; congruence. Qed.
Lemma src_dst R : ~ diag R -> exists P, ~ diag P /\ src a i b j P = R.
Proof.
  intro D. pose proof flip_ne as Nab. pose proof (nxt_neq i). pose proof (prv_neq i). pose proof (nxt_neq j). pose proof (prv_neq j).
  unfold diag in *. destruct (pos_cases R) as [->|[->|[->|[->|[->|[->|[X Y]]]]]]]; try tauto.
  - exists (a, prv i). rewrite src_ap. split; auto. intros [E|E]; injection E; intros; congruence.
  - exists (b, nxt j). rewrite src_bn. split; auto. intros [E|E]; injection E; intros; congruence.
  - exists (b, prv j). rewrite src_bp. split; auto. intros [E|E]; injection E; intros; congruence.
  - exists (a, nxt i). rewrite src_an. split; auto. intros [E|E]; injection E; intros; congruence.
  - exists R. rewrite src_out by auto. auto.
Qed.
Lemma src_nodiag P : ~ diag P -> ~ diag (src a i b j P).
Proof.
  intro D. pose proof flip_ne as Nab. pose proof (nxt_neq i). pose proof (prv_neq i). pose proof (nxt_neq j). pose proof (prv_neq j).
  unfold diag in *. destruct (pos_cases P) as [->|[->|[->|[->|[->|[->|[X Y]]]]]]]; try tauto;
    rewrite ?src_an, ?src_ap, ?src_bn, ?src_bp, ?src_out by auto; try tauto; intros [E|E]; injection E; intros; congruence.
Qed.

(** vertices *)
Lemma flip_tv_out c k : c <> a -> c <> b -> tv ts' c k = tv ts c k.
Proof. intros. destruct flip_spec_links as (E & _). rewrite E. apply flip0_other; auto using flip_La, flip_Lb, flip_ne. Qed.
Lemma flip_tv_a : tv ts' a i = y /\ tv ts' a (nxt i) = p /\ tv ts' a (prv i) = q.
Proof. destruct flip_spec_links as (E & _). rewrite !E. apply (flip0_a ts a i b j flip_La flip_Lb flip_ne). Qed.
Lemma flip_tv_b : tv ts' b j = x /\ tv ts' b (nxt j) = q /\ tv ts' b (prv j) = p.
Proof.
  destruct flip_spec_links as (E & _). rewrite !E. destruct (flip0_b ts a i b j flip_La flip_Lb flip_ne) as ((A1 & A2 & A3) & _).
  unfold ts0. rewrite A1, A2, A3, flip_x. auto.
Qed.
(** the directed edge at every position but the diagonal's is the one at [src] *)
Lemma flip_edge P : ~ diag P -> let R := src a i b j P in
  tv ts' (fst P) (nxt (snd P)) = tv ts (fst R) (nxt (snd R)) /\ tv ts' (fst P) (prv (snd P)) = tv ts (fst R) (prv (snd R)).
Proof.
  intro D. cbv zeta. unfold diag in D. destruct flip_tv_a as (A1 & A2 & A3), flip_tv_b as (B1 & B2 & B3).
  pose proof flip_x as Fx. pose proof flip_y as Fy.
  destruct (pos_cases P) as [->|[->|[->|[->|[->|[->|[X Y]]]]]]]; try tauto;
    rewrite ?src_an, ?src_ap, ?src_bn, ?src_bp; cbn [fst snd]; rewrite ?nxt_nxt, ?prv_prv, ?nxt_prv, ?prv_nxt; try (unfold p, q, x, y in *; split; congruence).
  rewrite src_out, !flip_tv_out by auto. auto.
Qed.

(** neighbours *)
Lemma src_pair P Q : ~ diag P -> ~ diag Q -> ppaired ts (src a i b j P) (src a i b j Q) -> In (P, Q) L \/ In (Q, P) L \/
  (fst P <> a /\ fst P <> b /\ fst Q <> a /\ fst Q <> b).
Proof.
  intros DP DQ PQ. pose proof flip_ne as Nab.
  assert (U : forall c k o R, c < length ts -> side ts c k o -> ppaired ts (c, k) R -> o = Some R).
  { intros c k [[d l]|] [d' l'] Lc Sd Pd; unfold ppaired in Pd; simpl in *.
    - destruct (paired_unique (m_ccw M _ Lc) (m_ccw M d ltac:(apply Sd)) Sd Pd) as [-> ->]. auto.
    - destruct Pd as (_ & _ & X & _). congruence. }
  assert (W : forall P, ~ diag P -> (fst P = a \/ fst P = b) -> forall R, ppaired ts (src a i b j P) R -> In (P, R) L /\ src a i b j R = R).
  { clear P Q DP DQ PQ. intros P DP IN R PQ. pose proof flip_La as La. pose proof flip_Lb as Lb.
    assert (XX : In (P, R) L).
    { unfold diag in DP. rewrite in_L.
      destruct (pos_cases P) as [->|[->|[->|[->|[->|[->|[X Y]]]]]]]; try tauto; rewrite ?src_an, ?src_ap, ?src_bn, ?src_bp in PQ.
      - right; left. split; auto. eapply U; [exact Lb|exact S3|exact PQ].
      - left. split; auto. eapply U; [exact La|exact S2|exact PQ].
      - right; right; left. split; auto. eapply U; [exact La|exact S1|exact PQ].
      - right; right; right. split; auto. eapply U; [exact Lb|exact S4|exact PQ]. }
    split; auto. apply in_L_out in XX. apply src_out; tauto. }
  destruct (Nat.eq_dec (fst P) a) as [EP|NPa]; [|destruct (Nat.eq_dec (fst P) b) as [EP|NPb]].
  1,2: left; destruct (W P DP (ltac:(auto)) _ PQ) as [X1 X2]; pose proof (in_L_out _ _ X1) as X3;
    assert (XQ : src a i b j Q = Q) by
     (destruct (pos_cases Q) as [->|[->|[->|[->|[->|[->|[Z1 Z2]]]]]]]; try (destruct DQ; unfold diag; tauto); rewrite ?src_an, ?src_ap, ?src_bn, ?src_bp, ?src_out in * by auto; simpl in X3; tauto);
    rewrite XQ in X1; exact X1.
  destruct (Nat.eq_dec (fst Q) a) as [EQ|NQa]; [|destruct (Nat.eq_dec (fst Q) b) as [EQ|NQb]].
  1,2: right; left; apply paired_sym in PQ; destruct (W Q DQ (ltac:(auto)) _ PQ) as [X1 X2]; rewrite src_out in X1 by auto; exact X1.
  tauto.
Qed.
Lemma flip_pair_spec P Q : ~ diag P -> ~ diag Q -> ppaired ts (src a i b j P) (src a i b j Q) -> ppaired ts' P Q.
Proof.
  intros DP DQ PQ.
  assert (O : tv ts' (fst P) (nxt (snd P)) = tv ts' (fst Q) (prv (snd Q)) /\ tv ts' (fst P) (prv (snd P)) = tv ts' (fst Q) (nxt (snd Q))).
  { destruct (flip_edge P DP) as [A1 A2], (flip_edge Q DQ) as [B1 B2]. rewrite A1, A2, B1, B2. apply PQ. }
  assert (LL : forall P, ~ diag P -> fst (src a i b j P) < length ts -> fst P < length ts).
  { intros R DR H. destruct (Nat.eq_dec (fst R) a) as [->|]; [exact flip_La|]. destruct (Nat.eq_dec (fst R) b) as [->|]; [exact flip_Lb|].
    rewrite src_out in H by auto. exact H. }
  assert (T : ptn ts' P = Some (fst Q) /\ ptn ts' Q = Some (fst P)).
  { destruct flip_spec_links as (_ & _ & F1 & F2). destruct (src_pair P Q DP DQ PQ) as [H|[H|H]].
    - apply F1 in H. tauto.
    - apply F1 in H. tauto.
    - destruct H as (H1 & H2 & H3 & H4). rewrite !src_out in PQ by auto.
      assert (NF : forall R R', fst R <> a -> fst R <> b -> fst R' <> a -> fst R' <> b -> ppaired ts R R' -> ~ In R (flat L)).
      { intros R R' N1 N2 N3 N4 PR' IN. apply in_flat in IN as (P1 & Q1 & IN & [->| ->]).
        - apply in_L in IN. destruct IN as [[-> _]|[[-> _]|[[-> _]|[-> _]]]]; simpl in *; congruence.
        - destruct PR' as (_ & _ & X & _). apply in_L in IN.
          destruct IN as [[-> Eo]|[[-> Eo]|[[-> Eo]|[-> Eo]]]];
            [rewrite Eo in S2|rewrite Eo in S3|rewrite Eo in S1|rewrite Eo in S4]; destruct Q1 as [c l]; simpl in *.
          + destruct S2 as (_ & _ & _ & Y & _). congruence.
          + destruct S3 as (_ & _ & _ & Y & _). congruence.
          + destruct S1 as (_ & _ & _ & Y & _). congruence.
          + destruct S4 as (_ & _ & _ & Y & _). congruence. }
      assert (NP := NF P Q H1 H2 H3 H4 PQ). assert (NQ := NF Q P H3 H4 H1 H2 (paired_sym PQ)).
      destruct (F2 P NP) as (-> & _), (F2 Q NQ) as (-> & _). unfold ptn, ts0.
      destruct (flip0_other ts a i b j flip_La flip_Lb flip_ne (fst P) (snd P) H1 H2) as (_ & -> & _).
      destruct (flip0_other ts a i b j flip_La flip_Lb flip_ne (fst Q) (snd Q) H3 H4) as (_ & -> & _).
      destruct PQ as (_ & _ & X & Y & _). auto. }
  destruct PQ as (L1 & L2 & _). unfold ppaired, paired. rewrite flip_len.
  repeat split; try apply T; try apply O; apply LL; auto.
Qed.
Lemma flip_diag_pair : ppaired ts' (a, i) (b, j).
Proof.
  destruct flip_tv_a as (A1 & A2 & A3), flip_tv_b as (B1 & B2 & B3).
  destruct flip_spec_links as (_ & _ & F1 & F2).
  assert (ND : forall R, diag R -> ~ In R (flat L)).
  { intros R D IN. pose proof flip_ne. pose proof (nxt_neq i). pose proof (prv_neq i). pose proof (nxt_neq j). pose proof (prv_neq j).
    apply in_flat in IN as (P1 & Q1 & IN & [->| ->]).
    - apply in_L in IN. destruct IN as [[-> _]|[[-> _]|[[-> _]|[-> _]]]]; destruct D as [E|E]; injection E; intros; congruence.
    - apply in_L_out in IN. destruct D as [E|E]; rewrite E in IN; simpl in IN; tauto. }
  destruct (F2 (a, i) (ND _ (or_introl eq_refl))) as (T1 & _), (F2 (b, j) (ND _ (or_intror eq_refl))) as (T2 & _).
  unfold ptn, ts0 in T1, T2. simpl in T1, T2.
  destruct (flip0_a ts a i b j flip_La flip_Lb flip_ne) as (_ & (Y1 & _) & _).
  destruct (flip0_b ts a i b j flip_La flip_Lb flip_ne) as (_ & (Y2 & _) & _). rewrite Y1 in T1. rewrite Y2 in T2.
  unfold ppaired, paired, opposed. cbn [fst snd]. rewrite flip_len, A2, A3, B2, B3.
  repeat split; auto using flip_La, flip_Lb.
Qed.
Lemma flip_bnd P : ~ diag P -> fst P < length ts -> (ptn ts' P = None <-> ptn ts (src a i b j P) = None).
Proof.
  intros DP LP. split; intro H.
  - destruct (ptn ts (src a i b j P)) as [d|] eqn:E; auto. exfalso. unfold ptn in E.
    assert (LS : fst (src a i b j P) < length ts).
    { unfold src. repeat destruct (pos_dec _ _); simpl; auto using flip_La, flip_Lb. }
    destruct (m_adj M _ _ _ LS E) as (l & PD).
    assert (ND : ~ diag (d, l)).
    { intros D. apply (src_nodiag P DP). destruct D as [D|D]; injection D as -> ->; apply paired_sym in PD.
      - right. destruct (paired_unique flip_Ca flip_Cb PR PD) as [X Y]. destruct (src a i b j P); simpl in *; congruence.
      - left. destruct (paired_unique flip_Cb flip_Ca (paired_sym PR) PD) as [X Y]. destruct (src a i b j P); simpl in *; congruence. }
    destruct (src_dst _ ND) as (Q & DQ & EQ). assert (PQ : ppaired ts (src a i b j P) (src a i b j Q)) by (rewrite EQ; exact PD).
    apply flip_pair_spec in PQ; auto. destruct PQ as (_ & _ & X & _). unfold ptn in H. congruence.
  - destruct flip_spec_links as (_ & _ & F1 & F2).
    assert (NF : ~ In P (flat L)).
    { intro IN. apply in_flat in IN as (P1 & Q1 & IN & [EP|EP]).
      - subst P1. apply in_L in IN. unfold ptn in H.
        destruct IN as [[-> Eo]|[[-> Eo]|[[-> Eo]|[-> Eo]]]]; rewrite ?src_an, ?src_ap, ?src_bn, ?src_bp in H; simpl in H;
          [rewrite Eo in S2; rename S2 into SS|rewrite Eo in S3; rename S3 into SS|rewrite Eo in S1; rename S1 into SS|rewrite Eo in S4; rename S4 into SS];
          destruct Q1 as [c l]; destruct SS as (_ & _ & X & _); congruence.
      - subst Q1. pose proof (in_L_out _ _ IN) as (X1 & X2 & _). rewrite src_out in H by auto. apply in_L in IN. unfold ptn in H.
        destruct IN as [[-> Eo]|[[-> Eo]|[[-> Eo]|[-> Eo]]]];
          [rewrite Eo in S2; rename S2 into SS|rewrite Eo in S3; rename S3 into SS|rewrite Eo in S1; rename S1 into SS|rewrite Eo in S4; rename S4 into SS];
          destruct P as [c l]; destruct SS as (_ & _ & _ & X & _); simpl in *; congruence. }
    destruct (F2 P NF) as (-> & _). unfold ptn, ts0.
    destruct (flip0_a ts a i b j flip_La flip_Lb flip_ne) as (_ & (_ & Y2 & Y3) & _).
    destruct (flip0_b ts a i b j flip_La flip_Lb flip_ne) as (_ & (_ & Z2 & Z3) & _).
    unfold diag in DP. destruct (pos_cases P) as [->|[->|[->|[->|[->|[->|[X Y]]]]]]]; try tauto; cbn [fst snd]; auto.
    destruct (flip0_other ts a i b j flip_La flip_Lb flip_ne (fst P) (snd P) X Y) as (_ & -> & _).
    rewrite src_out in H by auto. exact H.
Qed.

Theorem flip_mesh : mesh N zc ts'.
Proof.
  destruct flip_tv_a as (A1 & A2 & A3), flip_tv_b as (B1 & B2 & B3).
  assert (Rng : forall c k, c < length ts -> tv ts c k < N) by (intros; apply M; auto).
  constructor.
  - intros c k Lc. rewrite flip_len in Lc.
    assert (G : p < N /\ q < N /\ x < N /\ y < N) by (repeat split; apply Rng; auto using flip_La, flip_Lb).
    destruct (pos_cases (c, k)) as [E|[E|[E|[E|[E|[E|[X Y]]]]]]]; try (injection E as -> ->; rewrite ?A1, ?A2, ?A3, ?B1, ?B2, ?B3; tauto).
    rewrite flip_tv_out by auto. auto.
  - intros c Lc. rewrite flip_len in Lc. destruct (Nat.eq_dec c a) as [->|Na]; [|destruct (Nat.eq_dec c b) as [->|Nb]].
    + apply (tccw_at i). rewrite A1, A2, A3. exact CX1.
    + apply (tccw_at j). rewrite B1, B2, B3. exact CX2.
    + unfold tccw. rewrite !flip_tv_out by auto. apply M; auto.
  - intros c k d Lc H. rewrite flip_len in Lc.
    destruct (pos_dec (c, k) (a, i)) as [E|N1]; [injection E as -> ->|destruct (pos_dec (c, k) (b, j)) as [E|N2]; [injection E as -> ->|]].
    + pose proof flip_diag_pair as FD. assert (d = b) by (destruct FD as (_ & _ & X & _); simpl in X; congruence). subst d. exists j. exact FD.
    + pose proof (paired_sym flip_diag_pair) as FD. simpl in FD. assert (d = a) by (destruct FD as (_ & _ & X & _); congruence). subst d. exists i. exact FD.
    + assert (DP : ~ diag (c, k)) by (unfold diag; tauto).
      destruct (ptn ts (src a i b j (c, k))) as [e|] eqn:E.
      2:{ apply (flip_bnd (c, k) DP Lc) in E. unfold ptn in E. simpl in E. congruence. }
      assert (LS : fst (src a i b j (c, k)) < length ts).
      { unfold src. repeat destruct (pos_dec _ _); simpl; auto using flip_La, flip_Lb. }
      destruct (m_adj M _ _ _ LS E) as (l & PD).
      assert (ND : ~ diag (e, l)).
      { intros D. apply (src_nodiag (c, k) DP). destruct D as [D|D]; injection D as -> ->; apply paired_sym in PD.
        - right. destruct (paired_unique flip_Ca flip_Cb PR PD) as [X Y]. destruct (src a i b j (c, k)); simpl in *; congruence.
        - left. destruct (paired_unique flip_Cb flip_Ca (paired_sym PR) PD) as [X Y]. destruct (src a i b j (c, k)); simpl in *; congruence. }
      destruct (src_dst _ ND) as (Q & DQ & EQ).
      assert (PQ : ppaired ts (src a i b j (c, k)) (src a i b j Q)) by (rewrite EQ; exact PD).
      apply flip_pair_spec in PQ; auto. assert (d = fst Q) by (destruct PQ as (_ & _ & X & _); simpl in X; congruence). subst d.
      exists (snd Q). exact PQ.
Qed.

Lemma flip_pair_inv P Q : ~ diag P -> ppaired ts' P Q -> ~ diag Q /\ ppaired ts (src a i b j P) (src a i b j Q).
Proof.
  intros DP PQ. assert (LP : fst P < length ts) by (rewrite <- flip_len; apply PQ).
  destruct (ptn ts (src a i b j P)) as [e|] eqn:E.
  2:{ apply (flip_bnd P DP LP) in E. destruct PQ as (_ & _ & X & _). unfold ptn in E. congruence. }
  assert (LS : fst (src a i b j P) < length ts).
  { unfold src. repeat destruct (pos_dec _ _); simpl; auto using flip_La, flip_Lb. }
  destruct (m_adj M _ _ _ LS E) as (l & PD).
  assert (ND : ~ diag (e, l)).
  { intros D. apply (src_nodiag P DP). destruct D as [D|D]; injection D as -> ->; apply paired_sym in PD.
    - right. destruct (paired_unique flip_Ca flip_Cb PR PD) as [X Y]. destruct (src a i b j P); simpl in *; congruence.
    - left. destruct (paired_unique flip_Cb flip_Ca (paired_sym PR) PD) as [X Y]. destruct (src a i b j P); simpl in *; congruence. }
  destruct (src_dst _ ND) as (Q' & DQ & EQ).
  assert (PQ' : ppaired ts (src a i b j P) (src a i b j Q')) by (rewrite EQ; exact PD).
  assert (PP : ppaired ts' P Q') by (apply flip_pair_spec; auto).
  assert (CP : tccw zc ts' (fst P)) by (apply flip_mesh; apply PP).
  assert (CQ : tccw zc ts' (fst Q')) by (apply flip_mesh; apply PP).
  destruct (paired_unique CP CQ PP PQ) as [X Y]. assert (Q = Q') by (destruct Q, Q'; simpl in *; congruence). subst Q'. auto.
Qed.
Lemma flip_diag_inv P Q : diag P -> ppaired ts' P Q -> diag Q.
Proof.
  intros DP PQ. destruct (pos_dec Q (a, i)) as [|N1]; [left; auto|]. destruct (pos_dec Q (b, j)) as [|N2]; [right; auto|].
  assert (DQ : ~ diag Q) by (unfold diag; tauto). apply paired_sym in PQ. destruct (flip_pair_inv Q P DQ PQ) as [X _]. tauto.
Qed.

(** constrained flags *)
Lemma flip0_tc P : ~ diag P -> ptc ts0 P = ptc ts (src a i b j P).
Proof.
  intro D. unfold ptc, ts0.
  destruct (flip0_a ts a i b j flip_La flip_Lb flip_ne) as (_ & _ & (_ & Y2 & Y3) & _).
  destruct (flip0_b ts a i b j flip_La flip_Lb flip_ne) as (_ & _ & (_ & Z2 & Z3) & _).
  unfold diag in D. destruct (pos_cases P) as [->|[->|[->|[->|[->|[->|[X Y]]]]]]]; try tauto;
    rewrite ?src_an, ?src_ap, ?src_bn, ?src_bp; cbn [fst snd]; auto.
  destruct (flip0_other ts a i b j flip_La flip_Lb flip_ne (fst P) (snd P) X Y) as (_ & _ & -> & _). rewrite src_out by auto. auto.
Qed.
(** a position that is no link keeps its flag *)
Lemma flip_tc_keep P : ~ In P (flat L) -> ~ diag P -> ptc ts' P = ptc ts (src a i b j P).
Proof. intros NF D. destruct flip_spec_links as (_ & _ & _ & F2). destruct (F2 P NF) as (_ & -> & _). apply flip0_tc; auto. Qed.
Lemma flip_tc_pair P Q : ~ diag P -> ~ diag Q -> ppaired ts (src a i b j P) (src a i b j Q) ->
  ptc ts' P || ptc ts' Q = ptc ts (src a i b j P) || ptc ts (src a i b j Q).
Proof.
  intros DP DQ PQ. rewrite <- !flip0_tc by auto. destruct flip_spec_links as (_ & _ & F1 & F2).
  destruct (in_dec pos_dec P (flat L)) as [IP|NP].
  - apply in_flat in IP as (P1 & Q1 & IN & C).
    assert (PP : ppaired ts' P Q) by (apply flip_pair_spec; auto).
    assert (EE : (P = P1 /\ Q = Q1) \/ (P = Q1 /\ Q = P1)).
    { assert (ND := proj1 flip_linkable). fold L in ND. destruct (src_pair P Q DP DQ PQ) as [H|[H|H]].
      - destruct (flat_unique L P Q P1 Q1 ND H IN) as [[-> ->]|(X1 & X2 & X3 & X4)]; [auto|]. destruct C; congruence.
      - destruct (flat_unique L Q P P1 Q1 ND H IN) as [[-> ->]|(X1 & X2 & X3 & X4)]; [auto|]. destruct C; congruence.
      - exfalso. destruct C as [<-|<-].
        + apply in_L in IN. destruct IN as [[E1 _]|[[E1 _]|[[E1 _]|[E1 _]]]]; rewrite E1 in H; simpl in H; tauto.
        + destruct (F1 _ _ IN) as (_ & I2 & _). destruct PP as (_ & _ & X & _). unfold ptn in I2.
          assert (EF : fst Q = fst P1) by congruence.
          apply in_L in IN. destruct IN as [[E1 _]|[[E1 _]|[[E1 _]|[E1 _]]]]; rewrite E1 in EF; simpl in EF; tauto. }
    destruct (F1 _ _ IN) as (_ & _ & T1 & T2 & _).
    destruct EE as [[-> ->]|[-> ->]]; rewrite T1, T2; [apply orb_diag|rewrite orb_diag; apply orb_comm].
  - assert (NQ : ~ In Q (flat L)).
    { intro IQ. destruct (src_pair P Q DP DQ PQ) as [H|[H|H]].
      - apply NP, in_flat. eauto.
      - apply NP, in_flat. eauto.
      - apply in_flat in IQ as (P1 & Q1 & IN & [->| ->]).
        + apply in_L in IN. destruct IN as [[E1 _]|[[E1 _]|[[E1 _]|[E1 _]]]]; rewrite E1 in H; simpl in H; tauto.
        + assert (PP : ppaired ts' P Q1) by (apply flip_pair_spec; auto). destruct (F1 _ _ IN) as (_ & I2 & _).
          destruct PP as (_ & _ & _ & X & _). unfold ptn in I2. assert (EF : fst P = fst P1) by congruence.
          apply in_L in IN. destruct IN as [[E1 _]|[[E1 _]|[[E1 _]|[E1 _]]]]; rewrite E1 in EF; simpl in EF; tauto. }
    destruct (F2 P NP) as (_ & -> & _), (F2 Q NQ) as (_ & -> & _). reflexivity.
Qed.

Lemma rim_L P Q : ~ diag P -> ppaired ts' P Q -> fst P = a \/ fst P = b -> In (P, Q) L.
Proof.
  intros DP PQ IN. destruct (flip_pair_inv P Q DP PQ) as [DQ PQ0]. destruct (src_pair P Q DP DQ PQ0) as [H|[H|H]]; auto; exfalso.
  - apply in_L_out in H. tauto.
  - tauto.
Qed.
(** boundary edges keep their flag *)
Lemma flip_tc_bnd P : ~ diag P -> fst P < length ts -> ptn ts' P = None -> ptc ts' P = ptc ts (src a i b j P).
Proof.
  intros DP LP H. apply flip_tc_keep; auto. intro IN. destruct flip_spec_links as (_ & _ & F1 & _).
  apply in_flat in IN as (P1 & Q1 & IN & [->| ->]); destruct (F1 _ _ IN) as (X1 & X2 & _); congruence.
Qed.
Lemma flip_diag_flags : ptc ts' (a, i) = ptc ts (a, i) || ptc ts (b, j) /\ ptc ts' (b, j) = ptc ts (a, i) || ptc ts (b, j) /\
  ptd ts' (a, i) = false /\ ptd ts' (b, j) = false.
Proof.
  destruct flip_spec_links as (_ & _ & F1 & F2).
  assert (ND : forall R, diag R -> ~ In R (flat L)).
  { intros R D IN. pose proof flip_ne. pose proof (nxt_neq i). pose proof (prv_neq i). pose proof (nxt_neq j). pose proof (prv_neq j).
    apply in_flat in IN as (P1 & Q1 & IN & [->| ->]).
    - apply in_L in IN. destruct IN as [[-> _]|[[-> _]|[[-> _]|[-> _]]]]; destruct D as [E|E]; injection E; intros; congruence.
    - apply in_L_out in IN. destruct D as [E|E]; rewrite E in IN; simpl in IN; tauto. }
  destruct (F2 (a, i) (ND _ (or_introl eq_refl))) as (_ & -> & ->), (F2 (b, j) (ND _ (or_intror eq_refl))) as (_ & -> & ->).
  destruct (flip0_a ts a i b j flip_La flip_Lb flip_ne) as (_ & _ & (Y1 & _) & (Y2 & _)).
  destruct (flip0_b ts a i b j flip_La flip_Lb flip_ne) as (_ & _ & (Z1 & _) & (Z2 & _)). auto.
Qed.
Lemma flip_agree : flags_agree ts -> flags_agree ts' /\ (forall P, ~ diag P -> fst P < length ts -> ptc ts' P = ptc ts (src a i b j P)).
Proof.
  intro FA. destruct flip_spec_links as (_ & _ & F1 & F2).
  assert (G : forall P, ~ diag P -> fst P < length ts -> ptc ts' P = ptc ts (src a i b j P)).
  { intros P DP LP. destruct (ptn ts' P) as [d|] eqn:E; [|apply flip_tc_bnd; auto].
    destruct (m_adj flip_mesh (fst P) (snd P) d) as [l PQ]; [rewrite flip_len; auto|exact E|].
    change (ppaired ts' P (d, l)) in PQ. destruct (flip_pair_inv _ _ DP PQ) as [DQ PQ0].
    pose proof (flip_tc_pair _ _ DP DQ PQ0) as T. assert (EQ : ptc ts (src a i b j P) = ptc ts (src a i b j (d, l))) by (apply FA; exact PQ0).
    assert (EE : ptc ts' P = ptc ts' (d, l) \/ ~ In P (flat L)).
    { destruct (in_dec pos_dec P (flat L)) as [IP|NP]; auto. left. apply in_flat in IP as (P1 & Q1 & IN & C).
      destruct (F1 _ _ IN) as (T1 & T2 & T3 & T4 & _).
      assert (PP1 : (P = P1 /\ (d, l) = Q1) \/ (P = Q1 /\ (d, l) = P1)).
      { assert (ND := proj1 flip_linkable). fold L in ND. destruct (src_pair P (d, l) DP DQ PQ0) as [H|[H|H]].
        - destruct (flat_unique L _ _ P1 Q1 ND H IN) as [[-> ->]|(X1 & X2 & X3 & X4)]; [auto|]. destruct C; congruence.
        - destruct (flat_unique L _ _ P1 Q1 ND H IN) as [[-> ->]|(X1 & X2 & X3 & X4)]; [auto|]. destruct C; congruence.
        - exfalso. destruct C as [<-|<-].
          + apply in_L in IN. destruct IN as [[E1 _]|[[E1 _]|[[E1 _]|[E1 _]]]]; rewrite E1 in H; simpl in H; tauto.
          + destruct PQ as (_ & _ & X & _). unfold ptn in T2. simpl in X. assert (EF : d = fst P1) by congruence. simpl in H.
            apply in_L in IN. destruct IN as [[E1 _]|[[E1 _]|[[E1 _]|[E1 _]]]]; rewrite E1 in EF; simpl in EF; tauto. }
      destruct PP1 as [[-> ->]|[-> ->]]; congruence. }
    destruct EE as [EE|NP]; [|apply flip_tc_keep; auto]. rewrite <- EE, <- EQ, !orb_diag in T. exact T. }
  split; auto. intros c k d l PQ. change (ppaired ts' (c, k) (d, l)) in PQ. change (ptc ts' (c, k) = ptc ts' (d, l)).
  destruct flip_diag_flags as (D1 & D2 & _).
  destruct (pos_dec (c, k) (a, i)) as [EP|N1]; [|destruct (pos_dec (c, k) (b, j)) as [EP|N2]].
  - rewrite EP in *. assert (X : (d, l) = (b, j)); [|rewrite X; congruence].
    destruct (paired_unique (m_ccw flip_mesh a ltac:(apply flip_diag_pair)) (m_ccw flip_mesh b ltac:(apply flip_diag_pair)) flip_diag_pair PQ) as [A B]. simpl in *; congruence.
  - rewrite EP in *. assert (X : (d, l) = (a, i)); [|rewrite X; congruence].
    destruct (paired_unique (m_ccw flip_mesh b ltac:(apply flip_diag_pair)) (m_ccw flip_mesh a ltac:(apply flip_diag_pair)) (paired_sym flip_diag_pair) PQ) as [A B]. simpl in *; congruence.
  - assert (DP : ~ diag (c, k)) by (unfold diag; tauto). destruct (flip_pair_inv _ _ DP PQ) as [DQ PQ0].
    rewrite !G; auto; try (rewrite <- flip_len; apply PQ). apply FA. exact PQ0.
Qed.
(** Delaunay flags survive only away from the two triangles *)
Lemma flip_td P Q : ppaired ts' P Q -> ptd ts' P = true ->
  fst P <> a /\ fst P <> b /\ fst Q <> a /\ fst Q <> b /\ ppaired ts P Q /\ ptd ts P = true.
Proof.
  intros PQ TD. destruct flip_spec_links as (_ & _ & F1 & F2). destruct flip_diag_flags as (_ & _ & D3 & D4).
  assert (DP : ~ diag P) by (intros [->| ->]; congruence). destruct (flip_pair_inv _ _ DP PQ) as [DQ PQ0].
  destruct (src_pair P Q DP DQ PQ0) as [H|[H|(H1 & H2 & H3 & H4)]].
  - destruct (F1 _ _ H) as (_ & _ & _ & _ & X & _). congruence.
  - destruct (F1 _ _ H) as (_ & _ & _ & _ & _ & X). congruence.
  - rewrite !src_out in PQ0 by auto. repeat split; auto; try apply PQ0.
    assert (NF : ~ In P (flat L)).
    { intro IN. apply in_flat in IN as (P1 & Q1 & IN & C). destruct (F1 _ _ IN) as (_ & _ & _ & _ & X1 & X2). destruct C; congruence. }
    destruct (F2 P NF) as (_ & _ & X). rewrite X in TD. unfold ptd, ts0 in TD.
    destruct (flip0_other ts a i b j flip_La flip_Lb flip_ne (fst P) (snd P) H1 H2) as (_ & _ & _ & Y). rewrite Y in TD. exact TD.
Qed.
Lemma flip_int c : tint ts' c = tint ts c.
Proof. destruct flip_spec_links as (_ & E & _). rewrite E. apply flip0_int; auto using flip_La, flip_Lb, flip_ne. Qed.

(** ** the function computes it *)
Definition isNone {T} (o : option T) : bool := match o with None => true | Some _ => false end.
Lemma side_nb c k o : side ts c k o -> tn ts c k = match o with None => None | Some (d, _) => Some d end.
Proof. destruct o as [[d l]|]; simpl; auto. intros (_ & _ & H & _). exact H. Qed.
Lemma six_ok : get_mut_six_ok (flip0 ts a i b j) (Some a) (Some b) (tn ts a (prv i)) (tn ts a (nxt i)) (tn ts b (prv j)) (tn ts b (nxt j)) = Done tt.
Proof.
  rewrite (side_nb _ _ _ S1), (side_nb _ _ _ S2), (side_nb _ _ _ S3), (side_nb _ _ _ S4).
  pose proof flip_ne as Nab.
  pose proof on1 as O1. pose proof on2 as O2. pose proof on3 as O3. pose proof on4 as O4.
  pose proof n12 as X12. pose proof n13 as X13. pose proof n14 as X14. pose proof n23 as X23. pose proof n24 as X24. pose proof n34 as X34.
  pose proof flip_La as La. pose proof flip_Lb as Lb. pose proof (flip0_length ts a i b j) as E0.
  unfold get_mut_six_ok, get_mut_two_ok. unfold TriangleStore in *. rewrite E0.
  clear L ts'.
  rewrite (proj2 (Nat.eqb_neq a b) Nab), (proj2 (Nat.ltb_lt _ _) La), (proj2 (Nat.ltb_lt _ _) Lb). cbn [negb andb rassert rbind].
  clear ts0 E0 CX1 CX2 S1 S2 S3 S4 M PR. clearbody p q x y.
  destruct o1 as [[c1 l1]|]; [specialize (O1 _ _ eq_refl) as (A1 & A2 & A3 & _)|];
  (destruct o2 as [[c2 l2]|]; [specialize (O2 _ _ eq_refl) as (B1 & B2 & B3 & _)|]);
  (destruct o3 as [[c3 l3]|]; [specialize (O3 _ _ eq_refl) as (C1 & C2 & C3 & _)|]);
  (destruct o4 as [[c4 l4]|]; [specialize (O4 _ _ eq_refl) as (D1 & D2 & D3 & _)|]);
  repeat match goal with X : forall c l c' l', Some _ = Some (c, l) -> Some _ = Some (c', l') -> _ |- _ =>
    specialize (X _ _ _ _ eq_refl eq_refl) | X : forall c l c' l', _ = _ -> _ |- _ => clear X end;
  cbn [some_ids forallb nodupb existsb orb negb andb];
  repeat match goal with H : ?u < ?v |- context [?u <? ?v] => rewrite (proj2 (Nat.ltb_lt u v) H) end; cbn [andb];
  repeat match goal with
   | H : ?u <> ?v |- context [?u =? ?v] => rewrite (proj2 (Nat.eqb_neq u v) H)
   | H : ?u <> ?v |- context [?v =? ?u] => rewrite (proj2 (Nat.eqb_neq v u) (fun E => H (eq_sym E))) end; reflexivity.
Qed.

Lemma L_paired P Q : In (P, Q) L -> ppaired ts' P Q.
Proof.
  intro IN. pose proof (in_L_out _ _ IN) as (X1 & X2 & X3). pose proof flip_ne as Nab.
  assert (DQ : ~ diag Q) by (unfold diag; intros [->| ->]; simpl in *; congruence).
  assert (DP : ~ diag P).
  { pose proof (nxt_neq i). pose proof (prv_neq i). pose proof (nxt_neq j). pose proof (prv_neq j).
    apply in_L in IN. destruct IN as [[-> _]|[[-> _]|[[-> _]|[-> _]]]]; intros [E|E]; injection E; intros; congruence. }
  apply flip_pair_spec; auto. rewrite (src_out Q) by auto. apply in_L in IN. destruct Q as [c l].
  destruct IN as [[-> E]|[[-> E]|[[-> E]|[-> E]]]]; rewrite ?src_an, ?src_ap, ?src_bn, ?src_bp; unfold ppaired; simpl;
    [rewrite E in S2; exact S2|rewrite E in S3; exact S3|rewrite E in S1; exact S1|rewrite E in S4; exact S4].
Qed.
Lemma mark_L dbg T P Q : length T = length ts -> (forall c k, tv T c k = tv ts' c k) -> In (P, Q) L ->
  mark_neighbor_cells dbg U_triangle_raw T (Some (fst P)) (Some (fst Q)) = Done (link1 T (P, Q)).
Proof.
  intros LT TV IN. apply L_paired in IN. destruct IN as (H1 & H2 & _ & _ & H3).
  apply (mark_cells (zc := zc)); try (unfold TriangleStore in *; rewrite LT, <- flip_len; auto; fail).
  - unfold tccw. rewrite !TV. apply flip_mesh. auto.
  - unfold tccw. rewrite !TV. apply flip_mesh. auto.
  - unfold opposed. rewrite !TV. exact H3.
Qed.
Lemma opair_cells dbg T P o n : n = match o with None => None | Some (d, _) => Some d end ->
  (forall Q, o = Some Q -> In (P, Q) L) -> length T = length ts -> (forall c k, tv T c k = tv ts' c k) ->
  (if tid_invalid n then Done T else mark_neighbor_cells dbg U_triangle_raw T (Some (fst P)) n) = Done (links T (opair P o)) /\
  length (links T (opair P o)) = length ts /\ (forall c k, tv (links T (opair P o)) c k = tv ts' c k).
Proof.
  intros -> H LT TV. destruct o as [[d l]|]; simpl; [|auto].
  specialize (H _ eq_refl). split; [apply (mark_L dbg T P (d, l)); auto|].
  assert (L1 : fst P < length ts) by (rewrite <- flip_len; apply L_paired in H; apply H).
  pose proof (in_L_out _ _ H) as (X1 & X2 & X3). simpl in X1, X2, X3.
  assert (NE : fst P <> d) by (apply in_L in H; destruct H as [[-> _]|[[-> _]|[[-> _]|[-> _]]]]; simpl; auto).
  destruct (link1_spec T P (d, l)) as (A1 & A2 & _); simpl; auto; try (rewrite LT; auto; fail).
  split; [exact (eq_trans A1 LT)|]. intros. exact (eq_trans (A2 c k) (TV c k)).
Qed.

Section Fn.
Context {A : Arith}.
Variable dbg : bool.
Theorem rotate_ok s : s_tris s = ts ->
  rotate_triangle_pair dbg (Some a) p (Some b) q s =
  (Done (isNone o1 || isNone o2 || isNone o3 || isNone o4), mkSw ts' (s_front s) (s_result s) (s_trace s)).
Proof.
  intro Es. unfold rotate_triangle_pair, bind, get_tris, lift. rewrite Es.
  pose proof flip_La as La. pose proof flip_Lb as Lb. pose proof flip_ne as Nab.
  assert (E2 : get_mut_two_ok ts (Some a) (Some b) = true).
  { unfold get_mut_two_ok. unfold TriangleStore in *. rewrite (proj2 (Nat.eqb_neq a b) Nab), (proj2 (Nat.ltb_lt _ _) La), (proj2 (Nat.ltb_lt _ _) Lb). reflexivity. }
  rewrite E2. cbn [rassert]. unfold ts_get_mut_unchecked, get_unchecked. rewrite !nth_error_at by auto.
  pose proof (tccw_distinct flip_Ca) as D1. pose proof (tccw_distinct flip_Cb) as D2.
  set (t := tri_at ts a) in *. set (u := tri_at ts b) in *.
  change p with (V t i). change q with (V u j).
  rewrite neighbor_ccw_V, neighbor_cw_V, neighbor_ccw_V, neighbor_cw_V by auto.
  rewrite edge_attr_ccw_V, edge_attr_cw_V, edge_attr_ccw_V, edge_attr_cw_V by auto.
  rewrite (rotate_cw_V t i), (rotate_cw_V u j) by auto.
  destruct (rotated_V t i (V u j)) as (R1 & R2 & R3). destruct (rotated_V u j (V t i)) as (R4 & R5 & R6).
  destruct flip_dist as (Q1 & Q2 & Q3 & Q4 & Q5). pose proof flip_pq as Q6. pose proof flip_x as Fx. pose proof flip_y as Fy.
  change (tv ts b (prv j)) with (V u (prv j)) in Fx. change (tv ts b (nxt j)) with (V u (nxt j)) in Fy.
  assert (D3 : distinct (rotated t i (V u j))).
  { change (V u j) with q in *. change (V t i) with p in *. change (V t (prv i)) with y in *. intros k l. destruct (ix_cases i k) as [->|[->| ->]], (ix_cases i l) as [->|[->| ->]]; rewrite ?R1, ?R2, ?R3; intro; congruence. }
  assert (D4 : distinct (rotated u j (V t i))).
  { change (V u j) with q in *. change (V t i) with p in *. intros k l. destruct (ix_cases j k) as [->|[->| ->]], (ix_cases j l) as [->|[->| ->]]; rewrite ?R4, ?R5, ?R6, ?Fx; intro; congruence. }
  rewrite <- R1 at 1. rewrite set_edge_attr_cw_V by auto. rewrite nxt_nxt.
  set (t2 := with_attrs (rotated t i (V u j)) _).
  assert (V2 : forall k, V t2 k = V (rotated t i (V u j)) k) by reflexivity.
  assert (D5 : distinct t2) by exact D3.
  replace (set_edge_attr_ccw t2 (V u j)) with (set_edge_attr_ccw t2 (V t2 (prv i))) by (rewrite V2, R2; reflexivity).
  rewrite set_edge_attr_ccw_V by auto. rewrite prv_prv.
  replace (set_edge_attr_ccw (rotated u j (V t i)) (V t i)) with (set_edge_attr_ccw (rotated u j (V t i)) (V (rotated u j (V t i)) (prv j))) by (rewrite R5; reflexivity).
  rewrite set_edge_attr_ccw_V by auto. rewrite prv_prv.
  set (u2 := with_attrs (rotated u j (V t i)) _).
  assert (V3 : forall k, V u2 k = V (rotated u j (V t i)) k) by reflexivity.
  assert (D6 : distinct u2) by exact D4.
  replace (set_edge_attr_cw u2 (V u j)) with (set_edge_attr_cw u2 (V u2 (nxt j))) by (rewrite V3, R4; reflexivity).
  rewrite set_edge_attr_cw_V by auto. rewrite nxt_nxt.
  set (t3 := with_attrs t2 _). set (u3 := with_attrs u2 _).
  assert (Vt3 : forall k, V (clear_neighbors t3) k = V (rotated t i (V u j)) k) by reflexivity.
  assert (Vu3 : forall k, V (clear_neighbors u3) k = V (rotated u j (V t i)) k) by reflexivity.
  rewrite (mark_two dbg (Some a) (Some b) (clear_neighbors t3) (clear_neighbors u3) i j).
  2: exact D5. 2: exact D6.
  2: rewrite Vt3, Vu3; congruence. 2: rewrite Vt3, Vu3; congruence.
  2: { rewrite Vt3, Vu3, R3, R6, Fx. change (V t (prv i)) with y. congruence. }
  cbn [ts_put].
  assert (C1 : tri_is_constrained (clear_neighbors t3) i = tri_is_constrained t i).
  { unfold tri_is_constrained. simpl. destruct i; reflexivity. }
  assert (C2 : tri_is_constrained (clear_neighbors u3) j = tri_is_constrained u j).
  { unfold tri_is_constrained. simpl. destruct j; reflexivity. }
  rewrite C1, C2.
  match goal with |- context [list_set (list_set ts a ?tt) b ?uu] =>
    assert (ET : tt = flip_t t u i j b) by reflexivity; assert (EU : uu = flip_u t u i j a) by reflexivity; rewrite ET, EU end.
  change (list_set (list_set ts a (flip_t t u i j b)) b (flip_u t u i j a)) with (flip0 ts a i b j).
  change (NB t (prv i)) with (tn ts a (prv i)). change (NB t (nxt i)) with (tn ts a (nxt i)).
  change (NB u (prv j)) with (tn ts b (prv j)). change (NB u (nxt j)) with (tn ts b (nxt j)).
  rewrite six_ok.
  assert (T0 : forall c k, tv (flip0 ts a i b j) c k = tv ts' c k) by (intros; symmetry; apply flip_spec_links).
  assert (I2 : forall Q, o2 = Some Q -> In ((a, prv i), Q) L) by (intros; apply in_L; auto).
  assert (I3 : forall Q, o3 = Some Q -> In ((a, nxt i), Q) L) by (intros; apply in_L; auto).
  assert (I1' : forall Q, o1 = Some Q -> In ((b, nxt j), Q) L) by (intros; apply in_L; auto).
  assert (I4 : forall Q, o4 = Some Q -> In ((b, prv j), Q) L) by (intros; apply in_L; auto 6).
  destruct (opair_cells dbg _ (a, prv i) o2 _ (side_nb _ _ _ S2) I2 (flip0_length ts a i b j) T0) as (K1 & K2 & K3). cbn [fst] in K1. change TriangleStore with (list InnerTriangle) in K1 |- *. rewrite K1.
  destruct (opair_cells dbg _ (a, nxt i) o3 _ (side_nb _ _ _ S3) I3 K2 K3) as (K4 & K5 & K6). cbn [fst] in K4. change TriangleStore with (list InnerTriangle) in K4 |- *. rewrite K4.
  destruct (opair_cells dbg _ (b, nxt j) o1 _ (side_nb _ _ _ S1) I1' K5 K6) as (K7 & K8 & K9). cbn [fst] in K7. change TriangleStore with (list InnerTriangle) in K7 |- *. rewrite K7.
  destruct (opair_cells dbg _ (b, prv j) o4 _ (side_nb _ _ _ S4) I4 K8 K9) as (K10 & _). cbn [fst] in K10. change TriangleStore with (list InnerTriangle) in K10 |- *. rewrite K10.
  unfold put_tris, ret. f_equal.
  - f_equal. rewrite (side_nb _ _ _ S1), (side_nb _ _ _ S2), (side_nb _ _ _ S3), (side_nb _ _ _ S4).
    destruct o1 as [[? ?]|], o2 as [[? ?]|], o3 as [[? ?]|], o4 as [[? ?]|]; reflexivity.
  - f_equal. unfold ts', flipped, flip_links, links. rewrite !fold_left_app. reflexivity.
Qed.
End Fn.
End Flip.
