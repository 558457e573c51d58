(** * Legal: legalization on a consistent mesh

    Flips happen only across unmarked edges whose in-circle test is positive;
    they keep the mesh consistent, strictly decrease an integer potential and
    leave no unmarked non-Delaunay edge behind. *)
From Coq Require Import List Arith Bool Lia ZArith.
From Verif Require Import Base Num Shape ShapeSpec Utils Points Triangles Front Sweeper Monad Lists Exact Geom Mesh Rotate Setup.
Import ListNotations.

(** ** Specification *)
Section Spec.
Variable zc : nat -> zpt.
(** in-circle determinant of the edge shared at P and Q *)
Definition inc (ts : TriangleStore) (P Q : pos) : Z :=
  incircle (zc (tv ts (fst P) (snd P))) (zc (tv ts (fst P) (nxt (snd P)))) (zc (tv ts (fst P) (prv (snd P)))) (zc (tv ts (fst Q) (snd Q))).
(** a shared edge, marked on neither side, that is not locally Delaunay *)
Definition bad (ts : TriangleStore) (P Q : pos) : Prop :=
  ppaired ts P Q /\ ptc ts P = false /\ ptc ts Q = false /\ (0 < inc ts P Q)%Z.
Definition delaunay_but (R : list nat) (ts : TriangleStore) : Prop :=
  forall P Q, bad ts P Q -> In (fst P) R \/ In (fst Q) R.
(** the Delaunay flag is only set on edges that are locally Delaunay *)
Definition dflags (ts : TriangleStore) : Prop :=
  forall P Q, ppaired ts P Q -> ptd ts P = true -> (inc ts P Q <= 0)%Z.

Definition tphi (ts : TriangleStore) (c : nat) : Z := phi (zc (tv ts c I0)) (zc (tv ts c I1)) (zc (tv ts c I2)).
Fixpoint zsum (f : nat -> Z) (n : nat) : Z := match n with O => 0%Z | S m => (zsum f m + f m)%Z end.
(** the potential: sum over all triangles of doubled area times the sum of squared norms *)
Definition potential (ts : TriangleStore) : Z := zsum (tphi ts) (length ts).

Lemma zsum_ext f g n : (forall c, c < n -> f c = g c) -> zsum f n = zsum g n.
Proof. induction n as [|n IH]; simpl; intros H; auto. rewrite IH, H; auto. Qed.
Lemma zsum_nonneg f n : (forall c, c < n -> (0 <= f c)%Z) -> (0 <= zsum f n)%Z.
Proof. induction n as [|n IH]; simpl; intros H; [lia|]. assert (0 <= zsum f n)%Z by (apply IH; auto). assert (0 <= f n)%Z by auto. lia. Qed.
Lemma zsum_change f g n a : a < n -> (forall c, c < n -> c <> a -> g c = f c) -> zsum g n = (zsum f n - f a + g a)%Z.
Proof.
  induction n as [|n IH]; intros H K; [lia|]. simpl. destruct (Nat.eq_dec a n) as [->|Ne].
  - rewrite (zsum_ext g f n); [lia|]. intros; apply K; lia.
  - rewrite IH; [|lia|intros; apply K; lia]. rewrite (K n); auto; lia.
Qed.
Lemma zsum_change2 f g n a b : a < n -> b < n -> a <> b -> (forall c, c < n -> c <> a -> c <> b -> g c = f c) ->
  zsum g n = (zsum f n - f a - f b + g a + g b)%Z.
Proof.
  intros Ha Hb Ne K. set (h := fun c => if c =? a then g a else f c).
  rewrite (zsum_change h g n b Hb). 2:{ intros c H1 H2. unfold h. destruct (Nat.eqb_spec c a) as [->|]; auto. }
  rewrite (zsum_change f h n a Ha). 2:{ intros c H1 H2. unfold h. destruct (Nat.eqb_spec c a); congruence. }
  unfold h. rewrite Nat.eqb_refl. destruct (Nat.eqb_spec b a); [congruence|]. lia.
Qed.
Lemma tphi_at ts c i : tphi ts c = phi (zc (tv ts c i)) (zc (tv ts c (nxt i))) (zc (tv ts c (prv i))).
Proof. unfold tphi. destruct i; simpl; auto; [symmetry; apply phi_rot|rewrite <- phi_rot, <- phi_rot; reflexivity]. Qed.

Lemma inc_sym ts P Q : ppaired ts P Q -> inc ts Q P = inc ts P Q.
Proof.
  intros (_ & _ & _ & _ & O1 & O2). unfold inc. rewrite O1, O2.
  rewrite (incircle_across (zc (tv ts (fst P) (snd P))) (zc (tv ts (fst Q) (prv (snd Q)))) (zc (tv ts (fst Q) (nxt (snd Q)))) (zc (tv ts (fst Q) (snd Q)))).
  reflexivity.
Qed.
Lemma bad_sym ts P Q : bad ts P Q -> bad ts Q P.
Proof. intros (H1 & H2 & H3 & H4). split; [apply paired_sym; auto|]. rewrite inc_sym; auto. Qed.
End Spec.

(** ** Setting the Delaunay flags of an edge *)
Definition set_del (ts : TriangleStore) (P Q : pos) : TriangleStore :=
  list_set (list_set ts (fst P) (tri_set_delaunay (tri_at ts (fst P)) (snd P) true)) (fst Q)
    (tri_set_delaunay (tri_at ts (fst Q)) (snd Q) true).
Lemma set_del_spec ts P Q : fst P < length ts -> fst Q < length ts -> fst P <> fst Q ->
  length (set_del ts P Q) = length ts /\ (forall c k, tv (set_del ts P Q) c k = tv ts c k) /\
  (forall R, ptn (set_del ts P Q) R = ptn ts R) /\ (forall R, ptc (set_del ts P Q) R = ptc ts R) /\
  (forall c, tint (set_del ts P Q) c = tint ts c) /\
  (forall R, ptd (set_del ts P Q) R = true -> ptd ts R = true \/ R = P \/ R = Q).
Proof.
  destruct P as [a i], Q as [b j]. cbn [fst snd]. intros La Lb Ne. split; [unfold set_del; rewrite !list_set_length; reflexivity|].
  assert (AT : forall c, tri_at (set_del ts (a, i) (b, j)) c =
     if b =? c then tri_set_delaunay (tri_at ts b) j true else if a =? c then tri_set_delaunay (tri_at ts a) i true else tri_at ts c).
  { intro c. unfold set_del. cbn [fst snd]. rewrite tri_at_set by (rewrite list_set_length; auto). destruct (b =? c); auto. apply tri_at_set; auto. }
  split; [|split; [|split; [|split]]].
  - intros c k. unfold tv. rewrite AT. destruct (Nat.eqb_spec b c) as [<-|]; [reflexivity|]. destruct (Nat.eqb_spec a c) as [<-|]; reflexivity.
  - intros [c k]. unfold ptn, tn. cbn [fst snd]. rewrite AT. destruct (Nat.eqb_spec b c) as [<-|]; [reflexivity|]. destruct (Nat.eqb_spec a c) as [<-|]; reflexivity.
  - intros [c k]. unfold ptc, tc. cbn [fst snd]. rewrite AT.
    assert (G : forall t l, tri_is_constrained (tri_set_delaunay t l true) k = tri_is_constrained t k).
    { intros t l. unfold tri_is_constrained, tri_set_delaunay. simpl. rewrite get3_set3. destruct (ix_eq_dec l k) as [->|]; auto. apply con_set_del. }
    destruct (Nat.eqb_spec b c) as [<-|]; [apply G|]. destruct (Nat.eqb_spec a c) as [<-|]; [apply G|reflexivity].
  - intros c. unfold tint. rewrite AT. destruct (Nat.eqb_spec b c) as [<-|]; [reflexivity|]. destruct (Nat.eqb_spec a c) as [<-|]; reflexivity.
  - intros [c k]. unfold ptd, td. cbn [fst snd]. rewrite AT.
    assert (G : forall t l, tri_is_delaunay (tri_set_delaunay t l true) k = true -> tri_is_delaunay t k = true \/ k = l).
    { intros t l. unfold tri_is_delaunay, tri_set_delaunay. simpl. rewrite get3_set3. destruct (ix_eq_dec l k) as [->|]; auto. }
    destruct (Nat.eqb_spec b c) as [<-|]; [intro H; apply G in H as [H| ->]; auto|].
    destruct (Nat.eqb_spec a c) as [<-|]; [intro H; apply G in H as [H| ->]; auto|auto].
Qed.

(** ** Stores with the same triangles and neighbours *)
Record alike (ts ts' : TriangleStore) : Prop := {
  al_len : length ts' = length ts;
  al_tv : forall c k, tv ts' c k = tv ts c k;
  al_tn : forall P, ptn ts' P = ptn ts P
}.
Lemma alike_sym ts ts' : alike ts ts' -> alike ts' ts.
Proof. intros [H1 H2 H3]. split; auto. Qed.
Lemma alike_pair ts ts' P Q : alike ts ts' -> ppaired ts P Q -> ppaired ts' P Q.
Proof.
  intros [H1 H2 H3] (A1 & A2 & A3 & A4 & A5 & A6). unfold ppaired, paired, opposed. unfold TriangleStore in *. rewrite H1, !H2.
  pose proof (H3 P). pose proof (H3 Q). unfold ptn in *. unfold TriangleStore in *. rewrite H, H0. repeat split; auto.
Qed.
Lemma alike_mesh N zc ts ts' : alike ts ts' -> mesh N zc ts -> mesh N zc ts'.
Proof.
  intros AL [M1 M2 M3]. pose proof AL as [H1 H2 H3]. constructor; unfold TriangleStore in *.
  - intros a i La. rewrite H2. apply M1. rewrite H1 in La. auto.
  - intros a La. unfold tccw. unfold TriangleStore in *. rewrite !H2. apply M2. rewrite H1 in La. auto.
  - intros a i b La E. rewrite H1 in La. pose proof (H3 (a, i)) as H4. unfold ptn in H4. cbn [fst snd] in H4. unfold TriangleStore in *. rewrite H4 in E.
    destruct (M3 a i b La E) as [j PJ]. exists j. apply (alike_pair ts ts' (a, i) (b, j)); auto.
Qed.

(** ** A flip, abstractly *)
Record flipspec (N : nat) (zc : nat -> zpt) (ts : TriangleStore) (a : nat) (i : ix) (b : nat) (j : ix) (need del : bool) (ts' : TriangleStore) : Prop := {
  fs_paired : paired ts a i b j;
  fs_ne : a <> b;
  fs_len : length ts' = length ts;
  fs_mesh : mesh N zc ts';
  fs_out : forall c k, c <> a -> c <> b -> tv ts' c k = tv ts c k;
  fs_a : tv ts' a i = tv ts a (prv i) /\ tv ts' a (nxt i) = tv ts a i /\ tv ts' a (prv i) = tv ts b j;
  fs_b : tv ts' b j = tv ts a (nxt i) /\ tv ts' b (nxt j) = tv ts b j /\ tv ts' b (prv j) = tv ts a i;
  fs_edge : forall P, ~ diag a i b j P -> let R := src a i b j P in
    tv ts' (fst P) (nxt (snd P)) = tv ts (fst R) (nxt (snd R)) /\ tv ts' (fst P) (prv (snd P)) = tv ts (fst R) (prv (snd R));
  fs_diag : ppaired ts' (a, i) (b, j);
  fs_diag_inv : forall P Q, diag a i b j P -> ppaired ts' P Q -> diag a i b j Q;
  fs_inv : forall P Q, ~ diag a i b j P -> ppaired ts' P Q -> ~ diag a i b j Q /\ ppaired ts (src a i b j P) (src a i b j Q);
  fs_spec : forall P Q, ~ diag a i b j P -> ~ diag a i b j Q -> ppaired ts (src a i b j P) (src a i b j Q) -> ppaired ts' P Q;
  fs_bnd : forall P, ~ diag a i b j P -> fst P < length ts -> (ptn ts' P = None <-> ptn ts (src a i b j P) = None);
  fs_tcd : ptc ts' (a, i) = ptc ts (a, i) || ptc ts (b, j) /\ ptc ts' (b, j) = ptc ts (a, i) || ptc ts (b, j);
  fs_tcp : forall P Q, ~ diag a i b j P -> ~ diag a i b j Q -> ppaired ts (src a i b j P) (src a i b j Q) ->
    ptc ts' P || ptc ts' Q = ptc ts (src a i b j P) || ptc ts (src a i b j Q);
  fs_tcb : forall P, ~ diag a i b j P -> fst P < length ts -> ptn ts' P = None -> ptc ts' P = ptc ts (src a i b j P);
  fs_agree : flags_agree ts -> flags_agree ts' /\ (forall P, ~ diag a i b j P -> fst P < length ts -> ptc ts' P = ptc ts (src a i b j P));
  fs_td : forall P Q, ppaired ts' P Q -> ptd ts' P = true ->
    (diag a i b j P /\ del = true) \/ (fst P <> a /\ fst P <> b /\ fst Q <> a /\ fst Q <> b /\ ppaired ts P Q /\ ptd ts P = true);
  fs_int : forall c, tint ts' c = tint ts c;
  fs_need : need = false -> forall P, ~ diag a i b j P -> fst P = a \/ fst P = b -> ptn ts' P <> None
}.

Lemma has_side N zc ts a i : mesh N zc ts -> a < length ts -> exists o, side ts a i o.
Proof.
  intros M La. destruct (tn ts a i) as [b|] eqn:E.
  - destruct (m_adj M a i b La E) as [j PJ]. exists (Some (b, j)). exact PJ.
  - exists None. exact E.
Qed.

Lemma flip_is_flip N zc ts a i b j o1 o2 o3 o4 :
  mesh N zc ts -> paired ts a i b j ->
  ccw3 zc (tv ts a (prv i)) (tv ts a i) (tv ts b j) -> ccw3 zc (tv ts a (nxt i)) (tv ts b j) (tv ts a i) ->
  side ts a (prv i) o1 -> side ts a (nxt i) o2 -> side ts b (prv j) o3 -> side ts b (nxt j) o4 ->
  flipspec N zc ts a i b j (isNone o1 || isNone o2 || isNone o3 || isNone o4) false (flipped ts a i b j o1 o2 o3 o4).
Proof.
  intros M PR C1 C2 S1 S2 S3 S4.
  constructor; auto.
  - eapply flip_ne; eauto.
  - eapply flip_len; eauto.
  - eapply flip_mesh; eauto.
  - intros. eapply flip_tv_out; eauto.
  - eapply flip_tv_a; eauto.
  - eapply flip_tv_b; eauto.
  - intros. eapply flip_edge; eauto.
  - eapply flip_diag_pair; eauto.
  - intros. eapply flip_diag_inv; eauto.
  - intros. eapply flip_pair_inv; eauto.
  - intros. eapply flip_pair_spec; eauto.
  - intros. eapply flip_bnd; eauto.
  - destruct (flip_diag_flags N zc ts a i b j M PR C1 C2 o1 o2 o3 o4 S1 S2 S3 S4) as (H1 & H2 & _). auto.
  - intros. eapply flip_tc_pair; eauto.
  - intros. eapply flip_tc_bnd; eauto.
  - intros. eapply flip_agree; eauto.
  - intros P Q H1 H2. right. eapply flip_td; eauto.
  - intros. eapply flip_int; eauto.
  - intros Hn P DP IN. apply orb_false_iff in Hn as [Hn N4]. apply orb_false_iff in Hn as [Hn N3]. apply orb_false_iff in Hn as [N1 N2].
    assert (La : a < length ts) by apply PR. assert (Lb : b < length ts) by apply PR.
    assert (LP : fst P < length ts) by (destruct IN as [->| ->]; auto).
    intro H. apply (flip_bnd N zc ts a i b j M PR C1 C2 o1 o2 o3 o4 S1 S2 S3 S4 P DP LP) in H.
    assert (G : forall c k o, side ts c k o -> isNone o = false -> tn ts c k <> None).
    { intros c k [[d l]|] Sd E; [|discriminate]. destruct Sd as (_ & _ & Sd & _). congruence. }
    unfold diag in DP. pose proof (flip_ne N zc ts a i b j M PR) as Nab.
    destruct (pos_cases a i b j P) as [->|[->|[->|[->|[->|[->|[X Y]]]]]]]; try tauto.
    + rewrite (src_an a i b j) in H. eapply G; [exact S3| |exact H]; auto.
    + rewrite (src_ap a i b j) in H. eapply G; [exact S2| |exact H]; auto.
    + rewrite (src_bn N zc ts a i b j M PR) in H. eapply G; [exact S1| |exact H]; auto.
    + rewrite (src_bp N zc ts a i b j M PR) in H. eapply G; [exact S4| |exact H]; auto.
Qed.
Lemma set_del_flip N zc ts a i b j need ts' : flipspec N zc ts a i b j need false ts' ->
  flipspec N zc ts a i b j need true (set_del ts' (a, i) (b, j)).
Proof.
  intros F. pose proof (fs_diag _ _ _ _ _ _ _ _ _ _ F) as PD. pose proof (fs_ne _ _ _ _ _ _ _ _ _ _ F) as Ne.
  assert (La : a < length ts') by apply PD. assert (Lb : b < length ts') by apply PD.
  destruct (set_del_spec ts' (a, i) (b, j) La Lb Ne) as (E1 & E2 & E3 & E4 & E5 & E6).
  assert (AL : alike ts' (set_del ts' (a, i) (b, j))) by (constructor; auto).
  set (T := set_del ts' (a, i) (b, j)) in *.
  assert (PP : forall P Q, ppaired T P Q <-> ppaired ts' P Q).
  { intros; split; apply alike_pair; auto using alike_sym. }
  destruct F. constructor; auto.
  - exact (eq_trans E1 fs_len0).
  - eapply alike_mesh; eauto.
  - intros. rewrite E2. auto.
  - rewrite !E2. auto.
  - rewrite !E2. auto.
  - intros P DP. cbv zeta. rewrite !E2. apply fs_edge0; auto.
  - apply PP; auto.
  - intros P Q D H. apply PP in H. eauto.
  - intros P Q D H. apply PP in H. eauto.
  - intros. apply PP. auto.
  - intros. rewrite E3. auto.
  - rewrite !E4. auto.
  - intros. rewrite !E4. auto.
  - intros P D L H. rewrite E4. rewrite E3 in H. auto.
  - intros FA. destruct (fs_agree0 FA) as [H1 H2]. split; [|intros; rewrite E4; auto].
    intros c k d l H. pose proof (E4 (c, k)) as X1. pose proof (E4 (d, l)) as X2. unfold ptc in X1, X2. cbn [fst snd] in *. rewrite X1, X2.
    apply H1. apply (PP (c, k) (d, l)). exact H.
  - intros P Q H T1. apply PP in H. apply E6 in T1 as [T1|T1].
    + destruct (fs_td0 P Q H T1) as [[_ X]|X]; [discriminate|auto].
    + left. unfold diag. tauto.
  - intros c. rewrite E5. auto.
  - intros Hn P D IN. rewrite E3. auto.
Qed.

(** ** What a flip does to the Delaunay edges and to the potential *)
Section FlipD.
Variables (N : nat) (zc : nat -> zpt) (ts : TriangleStore) (a : nat) (i : ix) (b : nat) (j : ix) (need del : bool) (ts' : TriangleStore).
Hypothesis F : flipspec N zc ts a i b j need del ts'.
Let Nab := fs_ne _ _ _ _ _ _ _ _ _ _ F.
Lemma out_nodiag P : fst P <> a -> fst P <> b -> ~ diag a i b j P /\ src a i b j P = P.
Proof. intros H1 H2. split; [intros [->| ->]; simpl in *; congruence|apply src_out; auto]. Qed.
Lemma inc_out P Q : fst P <> a -> fst P <> b -> fst Q <> a -> fst Q <> b -> inc zc ts' P Q = inc zc ts P Q.
Proof. intros. unfold inc. rewrite !(fs_out _ _ _ _ _ _ _ _ _ _ F) by auto. reflexivity. Qed.
Lemma flip_delaunay_but R : delaunay_but zc R ts -> delaunay_but zc (b :: a :: R) ts'.
Proof.
  intros D P Q (H1 & H2 & H3 & H4).
  destruct (Nat.eq_dec (fst P) a) as [->|Pa]; [simpl; auto|]. destruct (Nat.eq_dec (fst P) b) as [->|Pb]; [simpl; auto|].
  destruct (Nat.eq_dec (fst Q) a) as [->|Qa]; [simpl; auto|]. destruct (Nat.eq_dec (fst Q) b) as [->|Qb]; [simpl; auto|].
  destruct (out_nodiag P Pa Pb) as [DP SP]. destruct (out_nodiag Q Qa Qb) as [DQ SQ].
  destruct (fs_inv _ _ _ _ _ _ _ _ _ _ F P Q DP H1) as [_ K]. pose proof (fs_tcp _ _ _ _ _ _ _ _ _ _ F P Q DP DQ K) as T.
  rewrite SP, SQ in *. rewrite H2, H3 in T. symmetry in T. apply orb_false_iff in T as [T1 T2].
  rewrite inc_out in H4 by auto. destruct (D P Q) as [X|X]; [repeat split; auto; apply K| |]; simpl; auto.
Qed.
Lemma inc_diag : inc zc ts' (a, i) (b, j) = (- inc zc ts (a, i) (b, j))%Z.
Proof.
  unfold inc. cbn [fst snd]. destruct (fs_a _ _ _ _ _ _ _ _ _ _ F) as (-> & -> & ->). destruct (fs_b _ _ _ _ _ _ _ _ _ _ F) as (-> & _ & _).
  apply incircle_flip.
Qed.
Lemma flip_dflags : dflags zc ts -> (del = true -> (0 <= inc zc ts (a, i) (b, j))%Z) -> dflags zc ts'.
Proof.
  intros D K P Q PQ TD. destruct (fs_td _ _ _ _ _ _ _ _ _ _ F P Q PQ TD) as [[DP E]|(H1 & H2 & H3 & H4 & H5 & H6)].
  - specialize (K E). pose proof inc_diag as X. pose proof (fs_diag _ _ _ _ _ _ _ _ _ _ F) as PD.
    pose proof (fs_diag_inv _ _ _ _ _ _ _ _ _ _ F P Q DP PQ) as DQ. pose proof (fs_mesh _ _ _ _ _ _ _ _ _ _ F) as M.
    pose proof (inc_sym zc ts' _ _ PD) as Y.
    destruct DP as [->| ->], DQ as [->| ->]; try lia.
    + exfalso. destruct PQ as (A1 & _ & _ & _ & A2). apply (not_self (m_ccw M _ A1) A2).
    + exfalso. destruct PQ as (A1 & _ & _ & _ & A2). apply (not_self (m_ccw M _ A1) A2).
  - rewrite inc_out by auto. apply D; auto.
Qed.
Lemma flip_potential : potential zc ts' = (potential zc ts - inc zc ts (a, i) (b, j))%Z.
Proof.
  unfold potential. pose proof (fs_len _ _ _ _ _ _ _ _ _ _ F) as E. unfold TriangleStore in *. rewrite E.
  pose proof (fs_paired _ _ _ _ _ _ _ _ _ _ F) as (La & Lb & _ & _ & O1 & O2).
  rewrite (zsum_change2 (tphi zc ts) (tphi zc ts') (length ts) a b La Lb Nab).
  2:{ intros c _ H1 H2. unfold tphi. rewrite !(fs_out _ _ _ _ _ _ _ _ _ _ F) by auto. reflexivity. }
  rewrite (tphi_at zc ts a i), (tphi_at zc ts b j), (tphi_at zc ts' a i), (tphi_at zc ts' b j).
  destruct (fs_a _ _ _ _ _ _ _ _ _ _ F) as (-> & -> & ->). destruct (fs_b _ _ _ _ _ _ _ _ _ _ F) as (-> & -> & ->).
  unfold inc. cbn [fst snd]. rewrite <- O1, <- O2.
  pose proof (phi_flip (zc (tv ts a i)) (zc (tv ts a (nxt i))) (zc (tv ts a (prv i))) (zc (tv ts b j))). lia.
Qed.
End FlipD.

Lemma potential_nonneg N zc ts : mesh N zc ts -> (0 <= potential zc ts)%Z.
Proof. intro M. apply zsum_nonneg. intros c Lc. apply phi_nonneg. apply (m_ccw M c Lc). Qed.
