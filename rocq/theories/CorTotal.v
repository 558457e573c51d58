(** * CorTotal: a corridor never gets stuck and never visits a triangle twice *)
From Coq Require Import List Arith Bool Lia ZArith.
From Verif Require Import Base Num Shape ShapeSpec Utils Points Triangles Front Sweeper Cdt Lists Monad Traverse Exact
  FrontSpec Geom Mesh Rotate Setup Legal Legalize Boundary Chain Winding Cover CoverRun Remap Attach FrontInv Disc Good Marks Flips LegalTotal Cone Planar Corridor Frames Insert NoCross.
Import ListNotations.

(** ** counting *)
Definition cnt (f : nat -> bool) (n : nat) : nat := length (filter f (seq 0 n)).
Lemma filter_le {T} (f g : T -> bool) l : (forall v, In v l -> f v = true -> g v = true) -> length (filter f l) <= length (filter g l).
Proof.
  induction l as [|a l IH]; intro H; simpl; auto. specialize (IH (fun v Hv => H v (or_intror Hv))).
  destruct (f a) eqn:F; [rewrite (H a (or_introl eq_refl) F); simpl; lia|]. destruct (g a); simpl; lia.
Qed.
Lemma filter_lt {T} (f g : T -> bool) l x : (forall v, In v l -> f v = true -> g v = true) -> In x l -> f x = false -> g x = true -> length (filter f l) < length (filter g l).
Proof.
  induction l as [|a l IH]; intros H I F G; [destruct I|]. simpl. destruct I as [->|I].
  - rewrite F, G. simpl. pose proof (filter_le f g l (fun v Hv => H v (or_intror Hv))). lia.
  - specialize (IH (fun v Hv => H v (or_intror Hv)) I F G). destruct (f a) eqn:Fa; [rewrite (H a (or_introl eq_refl) Fa); simpl; lia|]. destruct (g a); simpl; lia.
Qed.
Lemma cnt_lt f g n x : (forall v, v < n -> f v = true -> g v = true) -> x < n -> f x = false -> g x = true -> cnt f n < cnt g n.
Proof. intros H L F G. apply (filter_lt f g (seq 0 n) x); auto; [intros v Hv; apply H; apply in_seq in Hv; lia|apply in_seq; lia]. Qed.
Lemma filter_len {T} (f : T -> bool) l : length (filter f l) <= length l.
Proof. induction l as [|a l IH]; simpl; auto. destruct (f a); simpl; lia. Qed.
Lemma cnt_le f n : cnt f n <= n.
Proof. unfold cnt. pose proof (filter_len f (seq 0 n)). rewrite seq_length in *. auto. Qed.

(** ** edges with triangles on both sides are kept by flips *)
Section Cr.
Variable N : nat.
Variable zc : nat -> zpt.
Notation CR := (CR zc).
Lemma CR_flip (S : nat -> Prop) x y ts a i b j need ts' : flipspec N zc ts a i b j need false ts' -> S a -> S b -> CR S x y ts -> CR S x y ts'.
Proof.
  intros F Sa Sb H P LP SP X. pose proof (fs_len _ _ _ _ _ _ _ _ _ _ F) as LL. pose proof (fs_paired _ _ _ _ _ _ _ _ _ _ F) as PR.
  assert (La : a < length ts) by apply PR. assert (Lb : b < length ts) by apply PR. rewrite LL in LP.
  destruct (fs_diag _ _ _ _ _ _ _ _ _ _ F) as (_ & _ & X1 & X2 & _).
  destruct (pos_dec P (a, i)) as [->|N1]; [unfold ptn; cbn [fst snd] in *; congruence|].
  destruct (pos_dec P (b, j)) as [->|N2]; [unfold ptn; cbn [fst snd] in *; congruence|].
  assert (DP : ~ diag a i b j P) by (intros [|]; auto).
  assert (SS : S (fst (src a i b j P)) /\ fst (src a i b j P) < length ts).
  { destruct (Nat.eq_dec (fst P) a) as [Ea|Na]; [|destruct (Nat.eq_dec (fst P) b) as [Eb|Nb]].
    - destruct (src_in a i b j P (or_introl Ea)) as [->| ->]; auto.
    - destruct (src_in a i b j P (or_intror Eb)) as [->| ->]; auto.
    - rewrite (src_out a i b j P Na Nb). auto. }
  destruct (fs_edge _ _ _ _ _ _ _ _ _ _ F P DP) as [E1 E2].
  assert (PE : pedge ts' P = pedge ts (src a i b j P)) by (unfold pedge; rewrite E1, E2; reflexivity). rewrite PE in X.
  intro B. apply (H _ (proj2 SS) (proj1 SS) X). apply (fs_bnd _ _ _ _ _ _ _ _ _ _ F P DP LP). exact B.
Qed.
Lemma CR_fl (S S' : nat -> Prop) x y ts ts' : (forall c, S' c -> S c) -> fl N zc S' ts ts' -> CR S x y ts -> CR S x y ts'.
Proof. intros HS. induction 1; auto. intro. apply IHfl. eapply CR_flip; eauto. Qed.
End Cr.

Section S.
Context {A : Arith} {E : Exact A}.
Variable points : Points.
Hypothesis PP : proper points.
Hypothesis NC : nocol points.
Notation N := (npts points).
Notation zc := (zc points).
Notation fl := (fl N zc).
Notation SL := (SL zc).
Notation PL := (PL points).
Notation FI := (FI points).
Notation Cor := (Cor points).
Notation CR := (CR zc).
Notation cone a b c d := (in_cone (zc a) (zc b) (zc c) (zc d)).

(** ** the points seen within a cone *)
Definition coneb (e p1 p2 v : nat) : bool := ((0 <? orient (zc e) (zc p1) (zc v)) && (orient (zc e) (zc p2) (zc v) <? 0))%Z.
Lemma coneb_iff e p1 p2 v : coneb e p1 p2 v = true <-> cone e p1 p2 v.
Proof using. unfold coneb, in_cone. rewrite andb_true_iff, Z.ltb_lt, Z.ltb_lt. tauto. Qed.
Definition kap (e p1 p2 : nat) : nat := cnt (coneb e p1 p2) N.
Lemma kap_le e p1 p2 : kap e p1 p2 <= N. Proof using. apply cnt_le. Qed.
Lemma not_true b : b <> true -> b = false. Proof using. destruct b; congruence. Qed.
Lemma kap_split e p1 p2 d : d < N -> (0 < orient (zc e) (zc p1) (zc p2))%Z -> cone e p1 p2 d -> kap e d p2 < kap e p1 p2 /\ kap e p1 d < kap e p1 p2.
Proof using.
  intros Ld H12 DC. pose proof DC as [D1 D2]. split; apply (cnt_lt _ _ N d); try (apply coneb_iff; auto); auto.
  - intros v Lv Hv. apply coneb_iff in Hv as [V1 V2]. apply coneb_iff. split; auto.
    pose proof (cramer (zc e) (zc d) (zc p2) (zc p1) (zc v)) as C. rewrite (orient_swap' (zc e) (zc p1) (zc d)) in C. rewrite (orient_swap' (zc e) (zc p2) (zc d)) in C.
    assert (M2 : (0 < - orient (zc e) (zc p2) (zc d))%Z) by lia. assert (M1 : (- orient (zc e) (zc p1) (zc d) < 0)%Z) by lia.
    apply (pos_of _ _ _ M2 C). pose proof (Z.mul_pos_pos _ _ H12 V1). pose proof (Z.mul_neg_neg _ _ M1 V2). lia.
  - apply not_true. intro Q. apply coneb_iff in Q as [Q _]. rewrite (proj2 (proj2 (orient_diag _ _))) in Q. lia.
  - intros v Lv Hv. apply coneb_iff in Hv as [V1 V2]. apply coneb_iff. split; auto.
    pose proof (cramer (zc e) (zc p1) (zc d) (zc p2) (zc v)) as C.
    apply (neg_of _ _ _ D1 C). pose proof (Z.mul_neg_pos _ _ D2 V1). pose proof (Z.mul_pos_neg _ _ H12 V2). lia.
  - apply not_true. intro Q. apply coneb_iff in Q as [_ Q]. rewrite (proj2 (proj2 (orient_diag _ _))) in Q. lia.
Qed.

(** ** corridors *)
Record CT (ts : TriangleStore) (e p1 p2 H : nat) (C : list nat) (X : nat) (k : ix) : Prop := {
  ct_nd : NoDup C;
  ct_x : forall P, In (fst P) C -> RL (zc e) (zc p1) (zc p2) (zc (fst (pedge ts P))) (zc (snd (pedge ts P))) -> P = (X, k) \/ ptn ts P <> None;
  ct_en : forall Y, In Y C -> Y <> H -> exists j X' k', paired ts X' k' Y j /\ In X' C /\ (X', k') <> (X, k) /\
    Lf (zc e) (zc p1) (zc p2) (zc (tv ts Y (nxt j))) /\ Rt (zc e) (zc p1) (zc p2) (zc (tv ts Y (prv j)))
}.
Section Cor.
Variables (ts : TriangleStore) (S : nat -> Prop) (ep e p1 p2 H : nat) (i : ix).
Hypothesis HP : PL ts.
Hypothesis HV : vertex ts ep.
Hypothesis HSL : SL S ep e ts.
Hypothesis HCR : CR S ep e ts.
Lemma ct_start : FI ts ep e H i -> tv ts H (nxt i) = p1 -> tv ts H (prv i) = p2 -> CT ts e p1 p2 H [H] H i.
Proof using HP.
  intros F E1 E2. pose proof F as (L & E0 & C). pose proof (pl_ccw points ts H i HP L) as CC. rewrite E0, E1, E2 in *. constructor.
  - repeat constructor. simpl. tauto.
  - intros [c l] [Q|[]] R. cbn [fst] in Q. subst c. left. destruct (ix_cases i l) as [->|[->| ->]]; [auto|exfalso|exfalso].
    + unfold pedge in R. cbn [fst snd] in R. rewrite prv_nxt, E0 in R. destruct R as [[_ R]|[_ R]]; [eapply Lf_apex|eapply Rt_apex]; eauto.
    + unfold pedge in R. cbn [fst snd] in R. rewrite nxt_prv, E0 in R. destruct R as [[R _]|[R _]]; [eapply Rt_apex|eapply Lf_apex]; eauto.
  - intros Y [<-|[]] Q. congruence.
Qed.
(** there is a triangle beyond the exit *)
Lemma ct_exit C X k : Cor ts S ep e p1 p2 H i C X k -> exists Y j, paired ts X k Y j.
Proof using HP HCR.
  intro CO. pose proof (cor_12 points ts S ep e p1 p2 H i HP _ _ _ CO) as H12. destruct (co_in _ _ _ _ _ _ _ _ _ _ _ _ CO X (co_X _ _ _ _ _ _ _ _ _ _ _ _ CO)) as [LX SX].
  assert (B : ptn ts (X, k) <> None). { apply HCR; auto. unfold pedge. cbn [fst snd]. eapply exit_cross; eauto; apply CO. }
  unfold ptn in B. cbn [fst snd] in B. destruct (tn ts X k) as [Y|] eqn:Q; [|congruence]. destruct (m_adj (pl_mesh _ _ HP) X k Y LX Q) as [j PR]. eauto.
Qed.
Section Step.
Variables (C : list nat) (X : nat) (k : ix) (Y : nat) (j : ix).
Hypothesis CO : Cor ts S ep e p1 p2 H i C X k.
Hypothesis CC : CT ts e p1 p2 H C X k.
Hypothesis PR : paired ts X k Y j.
Notation op := (tv ts Y j).
Lemma ct_new : ~ In Y C.
Proof using HP HSL CO CC PR.
  intro I0. pose proof (cor_12 points ts S ep e p1 p2 H i HP _ _ _ CO) as H12. pose proof (st_YH points ts S ep e p1 p2 H i HP HSL _ _ _ _ _ CO PR) as NH.
  destruct (st_Y points ts S ep e p1 p2 H i HP HSL _ _ _ _ _ CO PR) as (Y1 & Y2 & LY & SY).
  assert (RU := co_R _ _ _ _ _ _ _ _ _ _ _ _ CO). assert (LV := co_L _ _ _ _ _ _ _ _ _ _ _ _ CO).
  destruct (ct_en _ _ _ _ _ _ _ _ CC Y I0 NH) as (j' & X' & k' & PR' & IX & NX & L' & R'). rewrite <- Y1 in RU. rewrite <- Y2 in LV.
  assert (j' = j) as ->.
  { destruct (ix_cases j j') as [->|[->| ->]]; auto; exfalso.
    - rewrite prv_nxt in R'. rewrite nxt_nxt in L'. apply (Rt_Lf _ _ _ _ H12 RU L').
    - rewrite prv_prv in R'. apply (Rt_Lf _ _ _ _ H12 R' LV). }
  apply NX. assert (LX : X < length ts) by apply PR. assert (LX' : X' < length ts) by apply PR'.
  destruct (paired_unique (m_ccw (pl_mesh _ _ HP) Y LY) (m_ccw (pl_mesh _ _ HP) X LX) (paired_sym PR) (paired_sym PR')) as [-> ->]. reflexivity.
Qed.
Lemma ct_step k' : (k' = prv j \/ k' = nxt j) -> Cor ts S ep e p1 p2 H i (Y :: C) Y k' -> CT ts e p1 p2 H (Y :: C) Y k'.
Proof using HP HSL CO CC PR.
  intros KK CO'. pose proof ct_new as NY. pose proof (cor_12 points ts S ep e p1 p2 H i HP _ _ _ CO) as H12.
  destruct (st_Y points ts S ep e p1 p2 H i HP HSL _ _ _ _ _ CO PR) as (Y1 & Y2 & LY & SY).
  assert (RU := co_R _ _ _ _ _ _ _ _ _ _ _ _ CO). assert (LV := co_L _ _ _ _ _ _ _ _ _ _ _ _ CO). rewrite <- Y1 in RU. rewrite <- Y2 in LV.
  assert (RU' := co_R _ _ _ _ _ _ _ _ _ _ _ _ CO'). assert (LV' := co_L _ _ _ _ _ _ _ _ _ _ _ _ CO').
  constructor.
  - constructor; auto. apply CC.
  - intros P [Q|HPc] R.
    + destruct P as [c l]. cbn [fst] in Q. subst c. destruct (ix_eq_dec l k') as [->|Nk]; [left; auto|right].
      destruct (ix_eq_dec l j) as [->|Nj].
      * destruct PR as (_ & _ & _ & TN & _). unfold ptn. cbn [fst snd]. congruence.
      * exfalso. unfold pedge in R. cbn [fst snd] in R. destruct KK as [-> | ->].
        -- assert (l = nxt j) as -> by (destruct (ix_cases j l) as [->|[->| ->]]; congruence). rewrite nxt_nxt, prv_nxt in R. rewrite nxt_prv in RU'.
           destruct R as [[_ R]|[R _]]; [apply (Rt_Lf _ _ _ _ H12 RU' R)|apply (Rt_Lf _ _ _ _ H12 RU R)].
        -- assert (l = prv j) as -> by (destruct (ix_cases j l) as [->|[->| ->]]; congruence). rewrite nxt_prv, prv_prv in R. rewrite prv_nxt in LV'.
           destruct R as [[R _]|[_ R]]; [apply (Rt_Lf _ _ _ _ H12 R LV')|apply (Rt_Lf _ _ _ _ H12 R LV)].
    + right. destruct (ct_x _ _ _ _ _ _ _ _ CC P HPc R) as [->|TQ]; auto. destruct PR as (_ & _ & TN & _). unfold ptn. cbn [fst snd]. congruence.
  - intros Z [<-|HZ] NZ.
    + exists j, X, k. split; auto. split; [right; apply CO|]. split; [|auto]. intro Q. injection Q as Q _. apply NY. rewrite <- Q. apply CO.
    + destruct (ct_en _ _ _ _ _ _ _ _ CC Z HZ NZ) as (j' & X' & k2 & PR' & IX & NX & LR'). exists j', X', k2. split; auto. split; [right; auto|]. split; auto.
      intro Q. injection Q as Q _. apply NY. rewrite <- Q. exact IX.
Qed.
(** a nested insertion crosses only edges with two triangles *)
Lemma ct_CR : cone e p1 p2 op -> CR (fun c => In c (Y :: C)) e op ts.
Proof using HP HSL CO CC PR.
  intros DC P LP HPc XC. pose proof (cor_12 points ts S ep e p1 p2 H i HP _ _ _ CO) as H12. pose proof (co_He _ _ _ _ _ _ _ _ _ _ _ _ CO) as (E0 & E1 & E2).
  assert (CCC : In (fst P) C \/ fst P = Y) by (destruct HPc as [Q|Q]; auto). destruct CCC as [Hc|Q].
  - assert (R : RL (zc e) (zc p1) (zc p2) (zc (fst (pedge ts P))) (zc (snd (pedge ts P)))).
    { destruct XC as [_ XC]. unfold pedge in *. cbn [fst snd] in *. destruct (Nat.eq_dec (fst P) H) as [Q|Q].
      - rewrite Q in *. destruct (ix_cases i (snd P)) as [R|[R|R]]; rewrite R in *; rewrite ?nxt_nxt, ?prv_nxt, ?nxt_prv, ?prv_prv, ?E0, ?E1, ?E2 in *.
        + left. split; left; reflexivity.
        + exfalso. revert XC. rewrite (proj1 (proj2 (orient_diag (zc e) (zc (tv ts Y j))))). lia.
        + exfalso. revert XC. rewrite (proj1 (proj2 (orient_diag (zc e) (zc (tv ts Y j))))). lia.
      - assert (G : forall w, Rt (zc e) (zc p1) (zc p2) w -> (orient (zc e) (zc (tv ts Y j)) w < 0)%Z) by (intros w Hw; pose proof (Rt_cone _ _ _ _ _ H12 DC Hw); rewrite orient_swap'; lia).
        assert (G' : forall w, Lf (zc e) (zc p1) (zc p2) w -> (0 < orient (zc e) (zc (tv ts Y j)) w)%Z) by (intros w Hw; pose proof (Lf_cone _ _ _ _ _ H12 DC Hw); rewrite orient_swap'; lia).
        destruct (co_v _ _ _ _ _ _ _ _ _ _ _ _ CO (fst P) (nxt (snd P)) Hc Q) as [R1|R1], (co_v _ _ _ _ _ _ _ _ _ _ _ _ CO (fst P) (prv (snd P)) Hc Q) as [R2|R2]; unfold RL; auto.
        + exfalso. pose proof (Z.mul_neg_neg _ _ (G _ R1) (G _ R2)). lia.
        + exfalso. pose proof (Z.mul_pos_pos _ _ (G' _ R1) (G' _ R2)). lia. }
    destruct (ct_x _ _ _ _ _ _ _ _ CC P Hc R) as [->|T2]; auto. destruct PR as (_ & _ & TN & _). unfold ptn. cbn [fst snd]. congruence.
  - destruct P as [c l]. cbn [fst] in *. subst c. destruct (ix_cases j l) as [->|[->| ->]].
    + destruct PR as (_ & _ & _ & TN & _). unfold ptn. cbn [fst snd]. congruence.
    + exfalso. unfold pedge in XC. cbn [fst snd] in XC. rewrite nxt_nxt, prv_nxt in XC. apply pcross_swap in XC. revert XC. apply pcross_share.
    + exfalso. unfold pedge in XC. cbn [fst snd] in XC. rewrite nxt_prv, prv_prv in XC. revert XC. apply pcross_share.
Qed.
End Step.
End Cor.
End S.
