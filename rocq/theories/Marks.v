(** * Marks: marking edges constrained leaves everything else as it is *)
From Coq Require Import List Arith Bool Lia ZArith.
From Verif Require Import Base Num Shape ShapeSpec Utils Points Triangles Front Sweeper Cdt Lists Monad Exact
  FrontSpec Geom Mesh Rotate Setup Legal Legalize Boundary Chain Remap Attach FrontInv Disc Good.
Import ListNotations.

Definition set_con (ts : TriangleStore) (P : pos) : TriangleStore :=
  list_set ts (fst P) (tri_set_constrained (tri_at ts (fst P)) (snd P) true).

(** same triangles, neighbours and Delaunay flags; marks are only added *)
Record marked_more (ts ts' : TriangleStore) : Prop := {
  mm_alike : alike ts ts';
  mm_td : forall P, ptd ts' P = ptd ts P;
  mm_tc : forall P, ptc ts P = true -> ptc ts' P = true;
  mm_int : forall c, tint ts' c = tint ts c
}.
Lemma more_refl ts : marked_more ts ts.
Proof. constructor; auto. constructor; auto. Qed.
Lemma more_trans a b c : marked_more a b -> marked_more b c -> marked_more a c.
Proof.
  intros [[A1 A2 A3] A4 A5 A6] [[B1 B2 B3] B4 B5 B6]. constructor; [constructor| | |]; intros; auto; try congruence.
Qed.
Lemma set_con_at ts a i c : a < length ts -> tri_at (set_con ts (a, i)) c = if a =? c then tri_set_constrained (tri_at ts a) i true else tri_at ts c.
Proof. intro L. unfold set_con. cbn [fst snd]. apply tri_at_set; auto. Qed.
Lemma set_con_more ts P : fst P < length ts -> marked_more ts (set_con ts P).
Proof.
  destruct P as [a i]. cbn [fst]. intro L. constructor; [constructor|..].
  - unfold set_con. apply list_set_length.
  - intros c k. unfold tv. rewrite set_con_at by auto. destruct (Nat.eqb_spec a c) as [<-|]; reflexivity.
  - intros [c k]. unfold ptn, tn. cbn [fst snd]. rewrite set_con_at by auto. destruct (Nat.eqb_spec a c) as [<-|]; reflexivity.
  - intros [c k]. unfold ptd, td. cbn [fst snd]. rewrite set_con_at by auto. destruct (Nat.eqb_spec a c) as [<-|]; auto.
    unfold tri_is_delaunay, tri_set_constrained. simpl. rewrite get3_set3. destruct (ix_eq_dec i k) as [<-|]; auto. apply del_set_con.
  - intros [c k]. unfold ptc, tc. cbn [fst snd]. rewrite set_con_at by auto. destruct (Nat.eqb_spec a c) as [<-|]; auto.
    unfold tri_is_constrained, tri_set_constrained. simpl. rewrite get3_set3. destruct (ix_eq_dec i k) as [<-|]; auto. intros _. apply con_set_con.
  - intro c. unfold tint. rewrite set_con_at by auto. destruct (Nat.eqb_spec a c) as [<-|]; reflexivity.
Qed.
Lemma set_con_tc ts P Q : fst P < length ts -> ptc (set_con ts P) Q = if pos_dec P Q then true else ptc ts Q.
Proof.
  destruct P as [a i], Q as [c k]. cbn [fst]. intro L. unfold ptc, tc. cbn [fst snd]. rewrite set_con_at by auto.
  destruct (Nat.eqb_spec a c) as [<-|Ne].
  - unfold tri_is_constrained, tri_set_constrained. simpl. rewrite get3_set3.
    destruct (ix_eq_dec i k) as [<-|Nk], (pos_dec (a, i) (a, _)) as [Q|Q]; try congruence; auto. apply con_set_con.
  - destruct (pos_dec (a, i) (c, k)) as [Q|Q]; auto. congruence.
Qed.
Lemma more_pair ts ts' P Q : marked_more ts ts' -> ppaired ts' P Q -> ppaired ts P Q.
Proof. intros H. apply alike_pair. apply alike_sym, H. Qed.
Lemma more_pedge ts ts' P : marked_more ts ts' -> pedge ts' P = pedge ts P.
Proof. intros [[_ H _] _ _ _]. unfold pedge. rewrite !H. reflexivity. Qed.
Lemma more_bpos ts ts' P : marked_more ts ts' -> (bpos ts' P <-> bpos ts P).
Proof. intros [[H1 _ H3] _ _ _]. unfold bpos. rewrite H3. unfold TriangleStore in *. rewrite H1. tauto. Qed.
Lemma more_inc zc ts ts' P Q : marked_more ts ts' -> inc zc ts' P Q = inc zc ts P Q.
Proof. intros [[_ H _] _ _ _]. unfold inc. rewrite !H. reflexivity. Qed.
Lemma more_keeps ts ts' : marked_more ts ts' -> keeps ts ts'.
Proof.
  intros H P L T. exists P. split; [|split; [apply (mm_tc _ _ H); auto|apply more_pedge; auto]].
  pose proof (al_len _ _ (mm_alike _ _ H)). unfold TriangleStore in *. lia.
Qed.

(** the only marks added are on the edge p-q *)
Definition only (p q : nat) (ts ts' : TriangleStore) : Prop :=
  forall P, ptc ts' P = true -> ptc ts P = true \/ pedge ts P = (p, q) \/ pedge ts P = (q, p).
Lemma only_set2 p q ts P Q : fst P < length ts -> fst Q < length ts -> (pedge ts P = (p, q) \/ pedge ts P = (q, p)) -> (pedge ts Q = (p, q) \/ pedge ts Q = (q, p)) ->
  only p q ts (set_con (set_con ts P) Q).
Proof.
  intros LP LQ EP EQ R. assert (LQ1 : fst Q < length (set_con ts P)) by (unfold set_con; rewrite list_set_length; auto).
  rewrite set_con_tc by auto. destruct (pos_dec Q R) as [<-|]; auto. rewrite set_con_tc by auto. destruct (pos_dec P R) as [<-|]; auto.
Qed.
Lemma only_set1 p q ts P : fst P < length ts -> (pedge ts P = (p, q) \/ pedge ts P = (q, p)) -> only p q ts (set_con ts P).
Proof. intros LP EP R. rewrite set_con_tc by auto. destruct (pos_dec P R) as [<-|]; auto. Qed.
(** marking one more edge *)
Lemma marks_more p q L ts ts' : marked_more ts ts' -> only p q ts ts' -> marked_edge ts' p q -> marks_are L ts -> marks_are (mkEdge p q :: L) ts'.
Proof.
  intros MM ON ME MA u v. split.
  - intros (P & LP & EP & T). rewrite (more_pedge _ _ P MM) in EP. destruct (ON P T) as [T'|T'].
    + destruct (proj1 (MA u v)) as (e & He & HE); [|exists e; split; [right|]; auto]. exists P. split; auto. pose proof (al_len _ _ (mm_alike _ _ MM)). unfold TriangleStore in *. lia.
    + exists (mkEdge p q). split; [left; auto|]. cbn [e_p e_q]. destruct EP as [EP|EP], T' as [T'|T']; rewrite EP in T'; inversion T'; subst; auto.
  - intros (e & [<-|He] & HE).
    + cbn [e_p e_q] in HE. destruct ME as (P & L1 & L2 & L3). exists P. split; auto. split; auto. destruct HE as [HE|HE]; injection HE as -> ->; tauto.
    + apply (keeps_edge ts); [apply more_keeps; auto|]. apply MA. eauto.
Qed.

Section S.
Context {A : Arith} {E : Exact A}.
Variable dbg : bool.
Variable points : Points.
Hypothesis PP : proper points.
Notation N := (npts points).
Notation zc := (zc points).
Notation bnd := (boundary (ps_head points) (ps_tail points)).

Lemma more_Kst D R Q ts ts' af : marked_more ts ts' -> Kst points D R Q ts af -> (nocol points -> flags_agree ts') -> Kst points D R Q ts' af.
Proof using.
  intros MM [K1 K2 K3 K4 K5 K6 K7 K8] FA. constructor; auto.
  - eapply alike_mesh; [apply MM|auto].
  - intros P P' PQ TD. rewrite (more_inc _ _ _ _ _ MM). apply K2; [eapply more_pair; eauto|]. rewrite <- (mm_td _ _ MM). auto.
  - intros P P' (PQ & T1 & T2 & T3). apply K3. split; [eapply more_pair; eauto|]. rewrite (more_inc _ _ _ _ _ MM) in T3.
    split; [|split; auto].
    + destruct (ptc ts P) eqn:H; auto. apply (mm_tc _ _ MM) in H. congruence.
    + destruct (ptc ts P') eqn:H; auto. apply (mm_tc _ _ MM) in H. congruence.
  - destruct K4 as [B1 B2 B3 B4]. constructor.
    + intros P HP. rewrite (more_pedge _ _ _ MM). apply B1. apply (more_bpos _ _ _ MM); auto.
    + intros e e' AD. destruct (B2 e e' AD) as (P & H1 & H2 & H3). exists P. rewrite (more_pedge _ _ _ MM). split; [apply (more_bpos _ _ _ MM); auto|]. auto.
    + intros P P' HP HP' EE. rewrite !(more_pedge _ _ _ MM) in EE. apply B3; auto; apply (more_bpos _ _ _ MM); auto.
    + destruct B4 as (P & H1 & H2). exists P. rewrite (more_pedge _ _ _ MM). split; auto. apply (more_bpos _ _ _ MM); auto.
  - destruct (mm_alike _ _ MM) as [Q1 Q2 Q3]. apply (disc_same points D ts ts'); auto. intros P Q'. apply more_pair. exact MM.
Qed.

Lemma neighbor_slot ts a i b j : mesh N zc ts -> paired ts a i b j -> neighbor_index (tri_at ts b) (Some a) = Done j.
Proof using.
  intros M PR. assert (La : a < length ts) by apply PR. assert (Lb : b < length ts) by apply PR.
  assert (U : forall k, tn ts b k = Some a -> k = j).
  { intros k Hk. destruct (m_adj M b k a Lb Hk) as [i' PR'].
    assert (O1 : opposed ts b j a i) by (apply (paired_sym) in PR; apply PR). assert (O2 : opposed ts b k a i') by apply PR'.
    apply (opposed_once (m_ccw M _ Lb) (m_ccw M _ La) O1 O2). }
  assert (Hj : tn ts b j = Some a) by apply PR.
  unfold neighbor_index. unfold tn, NB in U, Hj.
  assert (EQ : forall o, tid_eqb o (Some a) = true -> o = Some a).
  { intros [x|]; simpl; [intro H; apply Nat.eqb_eq in H; congruence|discriminate]. }
  destruct (tid_eqb (a0 (t_neighbors (tri_at ts b))) (Some a)) eqn:Q0; [apply EQ in Q0; f_equal; apply (U I0); exact Q0|].
  destruct (tid_eqb (a1 (t_neighbors (tri_at ts b))) (Some a)) eqn:Q1; [apply EQ in Q1; f_equal; apply (U I1); exact Q1|].
  destruct (tid_eqb (a2 (t_neighbors (tri_at ts b))) (Some a)) eqn:Q2; [apply EQ in Q2; f_equal; apply (U I2); exact Q2|].
  exfalso. destruct j; simpl in Hj; rewrite Hj in *; simpl in *; rewrite Nat.eqb_refl in *; discriminate.
Qed.

Lemma set_two_agree ts P Q : flags_agree ts -> mesh N zc ts -> ppaired ts P Q -> flags_agree (set_con (set_con ts P) Q).
Proof using.
  intros FA M PQ a i b j PR. assert (LP : fst P < length ts) by apply PQ. assert (LQ : fst Q < length ts) by apply PQ.
  pose proof (set_con_more ts P LP) as M1. assert (LQ1 : fst Q < length (set_con ts P)) by (unfold set_con; rewrite list_set_length; auto).
  pose proof (set_con_more (set_con ts P) Q LQ1) as M2. pose proof (more_trans _ _ _ M1 M2) as M3.
  assert (PR0 : ppaired ts (a, i) (b, j)) by (eapply more_pair; eauto; exact PR).
  assert (X : forall R, ptc (set_con (set_con ts P) Q) R = if pos_dec Q R then true else if pos_dec P R then true else ptc ts R).
  { intro R. rewrite set_con_tc by auto. destruct (pos_dec Q R); auto. apply set_con_tc; auto. }
  pose proof (X (a, i)) as X1. pose proof (X (b, j)) as X2. unfold ptc in X1, X2. cbn [fst snd] in X1, X2. rewrite X1, X2. clear X X1 X2.
  assert (U : forall P Q Q', ppaired ts P Q -> ppaired ts P Q' -> Q' = Q).
  { intros [c k] [c' k'] [c'' k''] U1 U2. change (paired ts c k c' k') in U1. change (paired ts c k c'' k'') in U2.
    destruct (paired_unique (m_ccw M c ltac:(apply U1)) (m_ccw M c' ltac:(apply U1)) U1 U2) as [-> ->]. reflexivity. }
  assert (PS : forall P Q, ppaired ts P Q -> ppaired ts Q P) by (intros; apply paired_sym; auto).
  destruct (pos_dec Q (a, i)) as [Q1|Q1]; [subst Q|].
  { assert (P = (b, j)) by (eapply U; [exact PR0|apply PS; exact PQ]). subst P.
    destruct (pos_dec (a, i) (b, j)); auto. destruct (pos_dec (b, j) (b, j)); [auto|congruence]. }
  destruct (pos_dec P (a, i)) as [Q2|Q2]; [subst P|].
  { assert (Q = (b, j)) by (eapply U; [exact PR0|exact PQ]). subst Q. destruct (pos_dec (b, j) (b, j)); [auto|congruence]. }
  destruct (pos_dec Q (b, j)) as [Q3|Q3]; [subst Q|].
  { exfalso. apply Q2. eapply U; [apply PS; exact PR0|apply PS; exact PQ]. }
  destruct (pos_dec P (b, j)) as [Q4|Q4]; [subst P|].
  { exfalso. apply Q1. eapply U; [apply PS; exact PR0|exact PQ]. }
  unfold ptc. cbn [fst snd]. apply FA. exact PR0.
Qed.
Lemma set_one_agree ts P : flags_agree ts -> bpos ts P -> flags_agree (set_con ts P).
Proof using.
  intros FA [LP NP] a i b j PR. pose proof (set_con_more ts P LP) as M1.
  assert (PR0 : ppaired ts (a, i) (b, j)) by (eapply more_pair; eauto; exact PR).
  pose proof (set_con_tc ts P (a, i) LP) as X1. pose proof (set_con_tc ts P (b, j) LP) as X2. unfold ptc in X1, X2. cbn [fst snd] in X1, X2.
  rewrite X1, X2. destruct (pos_dec P (a, i)) as [->|]; [|destruct (pos_dec P (b, j)) as [->|]].
  - destruct PR0 as (_ & _ & H & _). unfold ptn in NP. cbn [fst snd] in *. congruence.
  - destruct PR0 as (_ & _ & _ & H & _). unfold ptn in NP. cbn [fst snd] in *. congruence.
  - apply FA. exact PR0.
Qed.

Lemma try_mark_wp p q a s : mesh N zc (s_tris s) -> a < length (s_tris s) ->
  wp (try_mark_edge_for_triangle p q (Some a)) s (fun _ _ => False) (fun r s' =>
    if r then exists ts', s' = mkSw ts' (s_front s) (s_result s) (s_trace s) /\ marked_more (s_tris s) ts' /\
           (flags_agree (s_tris s) -> flags_agree ts') /\ marked_edge ts' p q /\ only p q (s_tris s) ts' /\ edge_index (tri_at (s_tris s) a) p q <> None
    else s' = s /\ edge_index (tri_at (s_tris s) a) p q = None).
Proof using.
  intros M La. unfold try_mark_edge_for_triangle. set (ts := s_tris s) in *.
  apply wp_bind, wp_get_tris. apply wp_bind, wp_lift. fold ts. rewrite ts_mut_at by auto. cbn [okr].
  destruct (edge_index (tri_at ts a) p q) as [i|] eqn:EI; [|apply wp_ret; auto].
  cbv zeta. apply wp_bind, wp_put_tris. cbn [ts_put].
  change (list_set ts a (tri_set_constrained (tri_at ts a) i true)) with (set_con ts (a, i)).
  change (get3 (t_neighbors (tri_set_constrained (tri_at ts a) i true)) i) with (tn ts a i).
  pose proof (set_con_more ts (a, i) La) as M1.
  assert (ED : forall ts', marked_more ts ts' -> ptc ts' (a, i) = true -> marked_edge ts' p q).
  { intros ts' MM T. exists (a, i). split; [pose proof (al_len _ _ (mm_alike _ _ MM)); unfold TriangleStore in *; cbn; lia|]. split; auto.
    rewrite (more_pedge _ _ _ MM). unfold pedge. cbn [fst snd]. apply edge_index_some in EI. unfold tv. destruct EI as [[-> ->]|[-> ->]]; auto. }
  assert (EA : pedge ts (a, i) = (p, q) \/ pedge ts (a, i) = (q, p)).
  { unfold pedge. cbn [fst snd]. apply edge_index_some in EI. unfold tv. destruct EI as [[-> ->]|[-> ->]]; auto. }
  assert (T1 : ptc (set_con ts (a, i)) (a, i) = true) by (rewrite set_con_tc by auto; destruct (pos_dec (a, i) (a, i)); congruence).
  destruct (tn ts a i) as [b|] eqn:En; cbn [tid_invalid].
  - destruct (m_adj M a i b La En) as [j PR]. assert (Lb : b < length ts) by apply PR.
    assert (Ne : a <> b). { intros ->. destruct PR as (_ & _ & _ & _ & O). apply (not_self (m_ccw M _ La) O). }
    assert (Lb1 : b < length (set_con ts (a, i))) by (unfold set_con; rewrite list_set_length; auto).
    assert (AB : tri_at (set_con ts (a, i)) b = tri_at ts b).
    { rewrite set_con_at by auto. destruct (Nat.eqb_spec a b); congruence. }
    apply wp_bind, wp_lift. rewrite ts_mut_at by auto. cbn [okr].
    apply wp_bind, wp_lift. rewrite AB, (neighbor_slot ts a i b j M PR). cbn [okr].
    apply wp_bind, wp_put_tris. cbn [ts_put s_tris s_front s_result s_trace]. apply wp_ret.
    rewrite <- AB. change (list_set (set_con ts (a, i)) b (tri_set_constrained (tri_at (set_con ts (a, i)) b) j true)) with (set_con (set_con ts (a, i)) (b, j)).
    pose proof (set_con_more _ (b, j) Lb1) as M2. pose proof (more_trans _ _ _ M1 M2) as M3.
    exists (set_con (set_con ts (a, i)) (b, j)). split; auto. split; auto. split; [intro; apply set_two_agree; auto|].
    split; [apply ED; auto; apply (mm_tc _ _ M2); exact T1|]. split; [|congruence]. apply only_set2; auto.
    destruct PR as (_ & _ & _ & _ & O1 & O2). unfold pedge in *. cbn [fst snd] in *. rewrite <- O1, <- O2. destruct EA as [EA|EA]; injection EA as -> ->; auto.
  - apply wp_ret. exists (set_con ts (a, i)). split; auto. split; auto. split; [intro; apply set_one_agree; auto; split; auto|]. split; [apply ED; auto|]. split; [|congruence]. apply only_set1; auto.
Qed.
End S.
