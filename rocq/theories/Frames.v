(** * Frames: inserting an edge flips only across the edges it crosses and marks only that edge *)
From Coq Require Import List Arith Bool Lia ZArith.
From Verif Require Import Base Num Shape ShapeSpec Utils Points Triangles Front Sweeper Cdt Lists Monad Traverse Exact
  FrontSpec Geom Mesh Rotate Setup Legal Legalize Boundary Chain Winding Cover CoverRun Remap Attach FrontInv Disc Good Marks Flips LegalTotal Cone Planar Corridor.
Import ListNotations.

Lemma fl_vertex {A : Arith} {E : Exact A} points S ts ts' v : fl (npts points) (zc points) S ts ts' -> vertex ts v -> vertex ts' v.
Proof. induction 1; auto. intro. apply IHfl. eapply flip_vertex; eauto. Qed.

Local Open Scope Z_scope.
(** a point lexicographically highest sees all others within a half turn *)
Lemma high_cone_y e n p d : orient e n p * (snd d - snd e) = - orient e p d * (snd n - snd e) + orient e n d * (snd p - snd e).
Proof. zpts. ring. Qed.
Lemma high_cone e n p d : ylt n e -> ylt p e -> ylt d e -> 0 < orient e n p -> orient e n d < 0 -> 0 < orient e p d -> False.
Proof.
  intros Hn Hp Hd D0 D1 D2. pose proof (high_cone_y e n p d) as I1.
  assert (n1 : snd n <= snd e) by (unfold ylt in Hn; lia). assert (p1 : snd p <= snd e) by (unfold ylt in Hp; lia). assert (d1 : snd d <= snd e) by (unfold ylt in Hd; lia).
  pose proof (Z.mul_nonneg_nonpos (orient e n p) (snd d - snd e) ltac:(lia) ltac:(lia)) as X0.
  pose proof (Z.mul_nonpos_nonpos (- orient e p d) (snd n - snd e) ltac:(lia) ltac:(lia)) as X1.
  pose proof (Z.mul_nonpos_nonpos (orient e n d) (snd p - snd e) ltac:(lia) ltac:(lia)) as X2.
  assert (Y1 : snd n = snd e). { destruct (Z.eq_dec (snd n) (snd e)) as [|Q]; auto. pose proof (Z.mul_neg_neg (- orient e p d) (snd n - snd e) ltac:(lia) ltac:(lia)). lia. }
  assert (Y2 : snd p = snd e). { destruct (Z.eq_dec (snd p) (snd e)) as [|Q]; auto. pose proof (Z.mul_neg_neg (orient e n d) (snd p - snd e) ltac:(lia) ltac:(lia)). lia. }
  clear - D0 Y1 Y2. destruct e as [a b], n as [c d], p as [f g]. cbn [snd] in *. subst d g. revert D0. unfold orient, F64.orient_det. cbn [fst snd]. 
  replace ((a - f) * (b - b) - (b - b) * (c - f)) with 0 by ring. lia.
Qed.
Local Close Scope Z_scope.

Section S.
Context {A : Arith} {E : Exact A}.
Variable dbg : bool.
Variable points : Points.
Hypothesis PP : proper points.
Hypothesis NC : nocol points.
Notation N := (npts points).
Notation zc := (zc points).
Notation fl := (fl N zc).
Notation SL := (SL zc).
Notation PL := (PL points).
Notation FI := (FI points).
Notation Cor := (Cor points).
Notation cone a b c d := (in_cone (zc a) (zc b) (zc c) (zc d)).

Lemma scan_exact_sound : scan_exact points -> scan_sound points.
Proof using. intros H a b c d pa pb pc pd H1 H2 H3 H4. apply (H a b c d); auto. Qed.
Lemma scan_cone a b c d pa pb pc pd : scan_exact points -> pt points a = Done pa -> pt points b = Done pb -> pt points c = Done pc -> pt points d = Done pd ->
  (in_scan_area pa pb pc pd = true <-> cone a b c d).
Proof using. intros H H1 H2 H3 H4. rewrite (H a b c d pa pb pc pd H1 H2 H3 H4). unfold in_cone. rewrite (orient_swap' (zc a) (zc b) (zc d)), (orient_swap' (zc a) (zc c) (zc d)). lia. Qed.

(** a nested insertion ep-eq: all triangles it may touch are in S, H is the one at ep *)
Record nframe (S : nat -> Prop) (H h1 h2 ep eq qid : nat) (ts : TriangleStore) : Prop := {
  nf_H : S H /\ H < length ts;
  nf_Hv : exists k, tv ts H k = ep /\ tv ts H (nxt k) = h1 /\ tv ts H (prv k) = h2;
  nf_cone : cone ep h1 h2 eq;
  nf_v : forall c k, S c -> c < length ts -> c <> H ->
    tv ts c k = eq \/ Rt (zc ep) (zc h1) (zc h2) (zc (tv ts c k)) \/ Lf (zc ep) (zc h1) (zc h2) (zc (tv ts c k));
  nf_q : forall c k, S c -> c < length ts -> c <> H -> tv ts c k <> qid
}.
(** the insertion of an edge of the input, eq the highest vertex so far *)
Record tframe (ep eq qid : nat) (ts : TriangleStore) : Prop := {
  tf_v : vertex ts ep;
  tf_q : qid = eq;
  tf_high : forall v, vertex ts v -> v <> eq -> ylt (zc v) (zc eq)
}.
Definition mode := option (nat * nat * nat).
Definition frame (m : mode) (S : nat -> Prop) (ep eq qid : nat) (ts : TriangleStore) : Prop :=
  ep <> eq /\ SL S ep eq ts /\
  match m with None => (forall c, S c) /\ tframe ep eq qid ts | Some (H, h1, h2) => nframe S H h1 h2 ep eq qid ts end.

Lemma frame_vertex m S ep eq qid ts : frame m S ep eq qid ts -> vertex ts ep.
Proof using.
  intros (_ & _ & H). destruct m as [[[H' h1] h2]|]; [|apply H]. destruct (nf_Hv _ _ _ _ _ _ _ _ H) as (k & E1 & _). exists H', k. split; auto. apply H.
Qed.
Definition off (m : mode) (S' : nat -> Prop) : Prop := match m with None => True | Some (H, _, _) => ~ S' H end.
Lemma frame_fl m (S S' : nat -> Prop) ep eq qid ts ts' : (forall c, S' c -> S c) -> off m S' -> fl S' ts ts' -> frame m S ep eq qid ts -> frame m S ep eq qid ts'.
Proof using.
  intros HS OF FL (NE & HL & H). split; auto. split; [eapply SL_fl; eauto|]. pose proof (fl_len _ _ _ _ _ FL) as LL.
  destruct m as [[[H' h1] h2]|]; cbn [off] in OF.
  - destruct H as [[F1 F2] (k0 & F3) F4 F5 F6].
    assert (V : forall c k, S c -> c < length ts' -> c <> H' -> exists c' k', S c' /\ c' < length ts /\ c' <> H' /\ tv ts' c k = tv ts c' k').
    { intros c k Sc Lc Nc. destruct (fl_in _ _ _ _ _ FL c k) as (c' & k' & D & Lc' & Q); [unfold TriangleStore in *; rewrite LL in Lc; auto|].
      exists c', k'. split; [destruct D as [->|]; auto|]. split; auto. split; auto. intros ->. destruct D; auto. }
    constructor; auto.
    + split; auto. unfold TriangleStore in *. rewrite LL. auto.
    + exists k0. rewrite !(fl_out _ _ _ _ _ _ _ FL OF). exact F3.
    + intros c k Sc Lc Nc. destruct (V c k Sc Lc Nc) as (c' & k' & Sc' & Lc' & Nc' & ->). apply F5; auto.
    + intros c k Sc Lc Nc. destruct (V c k Sc Lc Nc) as (c' & k' & Sc' & Lc' & Nc' & ->). apply F6; auto.
  - destruct H as [Q [F1 F2 F3]]. split; auto. constructor; auto.
    + eapply fl_vertex; eauto.
    + intros v (c & k & Lc & <-) Nv. destruct (fl_in _ _ _ _ _ FL c k) as (c' & k' & _ & Lc' & Q'); [unfold TriangleStore in *; rewrite LL in Lc; auto|].
      rewrite Q' in *. apply F3; auto. exists c', k'. auto.
Qed.

(** *** nested frames *)
Section Nested.
Variables (S : nat -> Prop) (H h1 h2 ep eq qid : nat) (ts : TriangleStore).
Hypothesis HP : PL ts.
Hypothesis F : frame (Some (H, h1, h2)) S ep eq qid ts.
Lemma nf : nframe S H h1 h2 ep eq qid ts. Proof using F. apply F. Qed.
Lemma nf_12 : (0 < orient (zc ep) (zc h1) (zc h2))%Z.
Proof using HP F. pose proof nf as [[_ F2] (k & F3 & F4 & F5) _ _ _]. pose proof (pl_ccw points ts H k HP F2) as C. rewrite F3, F4, F5 in C. exact C. Qed.
Lemma nf_noeq k : tv ts H k <> eq.
Proof using HP F.
  pose proof nf as [[_ F2] (l & F3 & F4 & F5) C _ _]. pose proof nf_12 as H12. intro Q.
  destruct (ix_cases l k) as [->|[->| ->]]; rewrite ?F3, ?F4, ?F5 in Q.
  - apply (proj1 F). exact Q.
  - destruct C as [C _]. rewrite <- Q, (proj2 (proj2 (orient_diag _ _))) in C. lia.
  - destruct C as [_ C]. rewrite <- Q, (proj2 (proj2 (orient_diag _ _))) in C. lia.
Qed.
Lemma nf_eq c k : tv ts c k = eq -> c <> H.
Proof using HP F. intros Q ->. eapply nf_noeq; eauto. Qed.
Lemma nf_ep c k : S c -> c < length ts -> tv ts c k = ep -> c = H.
Proof using HP F.
  intros Sc Lc Q. destruct (Nat.eq_dec c H) as [|Nc]; auto. exfalso. pose proof nf_12 as H12.
  destruct (nf_v _ _ _ _ _ _ _ _ nf c k Sc Lc Nc) as [R|[R|R]]; rewrite Q in R.
  - apply (proj1 F). exact R.
  - apply (Rt_apex _ _ _ H12 R).
  - apply (Lf_apex _ _ _ H12 R).
Qed.
Lemma nf_noep c k l : S c -> c < length ts -> tv ts c k = eq -> tv ts c l <> ep.
Proof using HP F. intros Sc Lc Q R. apply (nf_eq c k Q). apply (nf_ep c l Sc Lc R). Qed.

Section Sub.
Variables (p1 p2 H' : nat) (i : ix) (C : list nat) (X : nat) (k : ix) (Y : nat) (j : ix).
Hypothesis CO : Cor ts S ep eq p1 p2 H' i C X k.
Hypothesis PR : paired ts X k Y j.
Hypothesis XH : X <> H'.
Hypothesis DC : cone eq p1 p2 (tv ts Y j).

Lemma sub_d : tv ts Y j <> ep.
Proof using PP NC HP F CO PR XH DC.
  intro Q. destruct F as (NE & HSL & NF). pose proof (frame_vertex _ _ _ _ _ _ F) as HV.
  destruct (st_Y points ts S ep eq p1 p2 H' i HP HSL C X k Y j CO PR) as (Y1 & Y2 & LY & SY).
  pose proof (cor_12 points ts S ep eq p1 p2 H' i HP C X k CO) as H12'. pose proof nf_12 as H12.
  assert (YH : Y = H) by (eapply nf_ep; eauto).
  destruct (co_in _ _ _ _ _ _ _ _ _ _ _ _ CO H' (co_H _ _ _ _ _ _ _ _ _ _ _ _ CO)) as [LH' SH'].
  destruct (co_He _ _ _ _ _ _ _ _ _ _ _ _ CO) as (E0 & E1 & E2).
  assert (NH : H' <> H) by (eapply nf_eq; eauto).
  destruct (nf_Hv _ _ _ _ _ _ _ _ NF) as (l & L0 & L1 & L2).
  assert (l = j) as ->. { rewrite <- YH in L0. rewrite <- Q in L0. apply (tv_inj (m_ccw (pl_mesh _ _ HP) Y LY)) in L0. exact L0. }
  rewrite <- YH in L1, L2. rewrite Y2 in L1. rewrite Y1 in L2.
  pose proof (co_R _ _ _ _ _ _ _ _ _ _ _ _ CO) as RU. pose proof (co_L _ _ _ _ _ _ _ _ _ _ _ _ CO) as LV. rewrite L2 in RU. rewrite L1 in LV.
  pose proof (co_cone _ _ _ _ _ _ _ _ _ _ _ _ CO) as CE. pose proof (nf_cone _ _ _ _ _ _ _ _ NF) as CN.
  pose proof (Rt_cone _ _ _ _ _ H12' CE RU) as U1. pose proof (Lf_cone _ _ _ _ _ H12' CE LV) as V1.
  assert (LX : X < length ts) by (apply (co_in _ _ _ _ _ _ _ _ _ _ _ _ CO X); apply CO).
  destruct (Nat.eq_dec h2 p1) as [U|U].
  - destruct (Nat.eq_dec h1 p2) as [W|W].
    + apply XH. assert (Z : (X, k) = (H', i)); [|congruence]. apply (pl_unique points PP ts (X, k) (H', i) HP LX LH'). unfold pedge. cbn [fst snd]. congruence.
    + (* p2 is outside on the right, seen from ep *)
      destruct (nf_v _ _ _ _ _ _ _ _ NF H' (prv i) SH' LH' NH) as [R|[R|R]]; rewrite E2 in R.
      * apply W. exfalso. rewrite <- E2, <- E0 in R. apply (tv_inj (m_ccw (pl_mesh _ _ HP) H' LH')) in R. destruct i; discriminate.
      * destruct R as [R|[R1 R2]]; [apply W; apply (pr_inj points PP); auto|].
        -- rewrite <- L1. apply (m_range (pl_mesh _ _ HP)); auto.
        -- rewrite <- E2. apply (m_range (pl_mesh _ _ HP)); auto.
        -- destruct LV as [LV|[LV1 LV2]]; [apply W; apply (pr_inj points PP); auto; [rewrite <- L1|rewrite <- E2]; apply (m_range (pl_mesh _ _ HP)); auto|].
           destruct CE as [CE1 CE2].
           apply (pl_cross points PP ts (H', nxt i) (Y, prv j) HP LH' LY). unfold pedge. cbn [fst snd]. rewrite nxt_nxt, prv_nxt, nxt_prv, prv_prv, E0, E2, Q, Y2, L1.
           unfold pcross. split.
           ++ rewrite (orient_swap (zc eq) (zc p2) (zc ep)), (orient_swap (zc eq) (zc p2) (zc h1)), (orient_swap' (zc eq) (zc h1) (zc p2)).
              apply Z.mul_pos_neg; lia.
           ++ rewrite (orient_swap' (zc ep) (zc p2) (zc h1)), (orient_rot (zc eq) (zc ep) (zc h1)), (orient_swap' (zc eq) (zc h1) (zc ep)).
              apply Z.mul_neg_pos; lia.
      * pose proof (Lf_cone _ _ _ _ _ H12 CN R) as Z. destruct CE as [CE1 CE2]. rewrite (orient_rot (zc eq) (zc ep) (zc p2)), orient_swap' in Z. lia.
  - (* p1 is outside on the left, seen from ep *)
    destruct (nf_v _ _ _ _ _ _ _ _ NF H' (nxt i) SH' LH' NH) as [R|[R|R]]; rewrite E1 in R.
    + exfalso. rewrite <- E1, <- E0 in R. apply (tv_inj (m_ccw (pl_mesh _ _ HP) H' LH')) in R. destruct i; discriminate.
    + pose proof (Rt_cone _ _ _ _ _ H12 CN R) as Z. destruct CE as [CE1 CE2].
      rewrite (orient_rot (zc eq) (zc ep) (zc p1)), orient_swap' in Z. lia.
    + destruct R as [R|[R1 R2]]; [apply U; apply (pr_inj points PP); auto|].
      * rewrite <- L2. apply (m_range (pl_mesh _ _ HP)); auto.
      * rewrite <- E1. apply (m_range (pl_mesh _ _ HP)); auto.
      * destruct RU as [RU|[RU1 RU2]]; [apply U; apply (pr_inj points PP); auto; [rewrite <- L2|rewrite <- E1]; apply (m_range (pl_mesh _ _ HP)); auto|].
        destruct CE as [CE1 CE2].
        apply (pl_cross points PP ts (H', prv i) (Y, nxt j) HP LH' LY). unfold pedge. cbn [fst snd]. rewrite nxt_prv, prv_prv, nxt_nxt, prv_nxt, E0, E1, Q, Y1, L2.
        unfold pcross. split.
        -- rewrite (orient_swap' (zc eq) (zc h2) (zc p1)). apply Z.mul_neg_pos; lia.
        -- rewrite (orient_swap (zc ep) (zc h2) (zc p1)), (orient_swap (zc ep) (zc h2) (zc eq)), (orient_swap' (zc ep) (zc p1) (zc h2)), (orient_rot (zc eq) (zc ep) (zc h2)), (orient_swap' (zc eq) (zc h2) (zc ep)).
           apply Z.mul_pos_neg; lia.
Qed.
Lemma sub_off : ~ In H (Y :: C).
Proof using PP NC HP F CO PR XH DC.
  pose proof sub_d as SD. destruct F as (NE & HSL & NF).
  destruct (st_Y points ts S ep eq p1 p2 H' i HP HSL C X k Y j CO PR) as (Y1 & Y2 & LY & SY).
  pose proof (cor_12 points ts S ep eq p1 p2 H' i HP C X k CO) as H12'.
  pose proof (co_cone _ _ _ _ _ _ _ _ _ _ _ _ CO) as CE.
  destruct (nf_Hv _ _ _ _ _ _ _ _ NF) as (l & L0 & L1 & L2). intros [Q|Q].
  - rewrite <- Q in L0. destruct (ix_cases j l) as [->|[->| ->]].
    + auto.
    + apply (cone_not_Lf _ _ _ _ H12' CE). rewrite <- L0, Y2. apply CO.
    + apply (cone_not_Rt _ _ _ _ H12' CE). rewrite <- L0, Y1. apply CO.
  - destruct (co_He _ _ _ _ _ _ _ _ _ _ _ _ CO) as (E0 & _ & _).
    assert (NH : H <> H'). { intro Z. rewrite <- Z in E0. apply (nf_noeq _ E0). }
    destruct (co_v _ _ _ _ _ _ _ _ _ _ _ _ CO H l Q NH) as [R|R]; rewrite L0 in R.
    + apply (cone_not_Rt _ _ _ _ H12' CE R).
    + apply (cone_not_Lf _ _ _ _ H12' CE R).
Qed.
End Sub.
End Nested.

(** *** the scan finds a point in the cone: a nested insertion starts *)
Section Start.
Variables (m : mode) (S : nat -> Prop) (ep e qid : nat) (ts : TriangleStore).
Hypothesis HP : PL ts.
Hypothesis F : frame m S ep e qid ts.
Variables (p1 p2 H' : nat) (i : ix) (C : list nat) (X : nat) (k : ix) (Y : nat) (j : ix).
Hypothesis CO : Cor ts S ep e p1 p2 H' i C X k.
Hypothesis PR : paired ts X k Y j.
Hypothesis XH : X <> H'.
Hypothesis DC : cone e p1 p2 (tv ts Y j).
Notation S' := (fun c => In c (Y :: C)).

Lemma start_sub c : S' c -> S c.
Proof using HP F CO PR.
  destruct F as (_ & HSL & _). intros [<-|Hc]; [|apply (co_in _ _ _ _ _ _ _ _ _ _ _ _ CO c Hc)].
  apply (st_Y points ts S ep e p1 p2 H' i HP HSL C X k Y j CO PR).
Qed.
Lemma start_off : off m S'.
Proof using PP NC HP F CO PR XH DC. destruct m as [[[H h1] h2]|]; [|exact I]. cbn [off]. eapply sub_off; eauto. Qed.
Lemma start_frame : frame (Some (H', p1, p2)) S' e (tv ts Y j) qid ts /\ FI ts e (tv ts Y j) Y j.
Proof using PP NC HP F CO PR XH DC.
  pose proof start_sub as SS. pose proof start_off as SO. pose proof F as (NE & HSL & NF).
  destruct (st_Y points ts S ep e p1 p2 H' i HP HSL C X k Y j CO PR) as (Y1 & Y2 & LY & SY).
  pose proof (cor_12 points ts S ep e p1 p2 H' i HP C X k CO) as H12.
  pose proof (st_YH points ts S ep e p1 p2 H' i HP HSL C X k Y j CO PR) as NYH. pose proof (st_ne points ts S ep e p1 p2 H' i HP HSL C X k Y j CO PR) as NDE.
  pose proof (st_agree points ts S ep e p1 p2 H' i HP HSL C X k Y j CO PR) as TY.
  pose proof (co_R _ _ _ _ _ _ _ _ _ _ _ _ CO) as RU. pose proof (co_L _ _ _ _ _ _ _ _ _ _ _ _ CO) as LV.
  pose proof (co_He _ _ _ _ _ _ _ _ _ _ _ _ CO) as (E0 & E1 & E2).
  assert (LX : X < length ts) by (apply (co_in _ _ _ _ _ _ _ _ _ _ _ _ CO X); apply CO).
  assert (VV : forall c l, S' c -> c < length ts -> c <> H' -> tv ts c l = tv ts Y j \/ Rt (zc e) (zc p1) (zc p2) (zc (tv ts c l)) \/ Lf (zc e) (zc p1) (zc p2) (zc (tv ts c l))).
  { intros c l [<-|Hc] Lc Nc.
    - destruct (ix_cases j l) as [->|[->| ->]]; auto; [rewrite Y2|rewrite Y1]; auto.
    - right. apply (co_v _ _ _ _ _ _ _ _ _ _ _ _ CO); auto. }
  split; [split; [congruence|split]|].
  - (* no marked edge of the corridor crosses *)
    intros P LP HPc XC. assert (CC : In (fst P) C \/ (~ In (fst P) C /\ fst P = Y)) by (destruct HPc as [Q|Q]; auto; destruct (in_dec Nat.eq_dec (fst P) C); auto).
    destruct CC as [Hc|[Nc Q]].
    + assert (R : RL (zc e) (zc p1) (zc p2) (zc (fst (pedge ts P))) (zc (snd (pedge ts P)))).
      { destruct XC as [_ XC]. unfold pedge in *. cbn [fst snd] in *. destruct (Nat.eq_dec (fst P) H') as [Q|Q].
        - rewrite Q in *. destruct (ix_cases i (snd P)) as [R|[R|R]]; rewrite R in *; rewrite ?nxt_nxt, ?prv_nxt, ?nxt_prv, ?prv_prv, ?E0, ?E1, ?E2 in *.
          + left. split; left; reflexivity.
          + exfalso. revert XC. rewrite (proj1 (proj2 (orient_diag (zc e) (zc (tv ts Y j))))). lia.
          + exfalso. revert XC. rewrite (proj1 (proj2 (orient_diag (zc e) (zc (tv ts Y j))))). lia.
        - assert (G : forall w, Rt (zc e) (zc p1) (zc p2) w -> (orient (zc e) (zc (tv ts Y j)) w < 0)%Z) by (intros w Hw; pose proof (Rt_cone _ _ _ _ _ H12 DC Hw); rewrite orient_swap'; lia).
          assert (G' : forall w, Lf (zc e) (zc p1) (zc p2) w -> (0 < orient (zc e) (zc (tv ts Y j)) w)%Z) by (intros w Hw; pose proof (Lf_cone _ _ _ _ _ H12 DC Hw); rewrite orient_swap'; lia).
          destruct (co_v _ _ _ _ _ _ _ _ _ _ _ _ CO (fst P) (nxt (snd P)) Hc Q) as [R1|R1], (co_v _ _ _ _ _ _ _ _ _ _ _ _ CO (fst P) (prv (snd P)) Hc Q) as [R2|R2]; unfold RL; auto.
          + exfalso. pose proof (Z.mul_neg_neg _ _ (G _ R1) (G _ R2)). lia.
          + exfalso. pose proof (Z.mul_pos_pos _ _ (G' _ R1) (G' _ R2)). lia. }
      destruct (co_e _ _ _ _ _ _ _ _ _ _ _ _ CO P Hc R) as [T1 [->|T2]]; split; auto.
      * intros [c' l'] PQ. destruct (paired_unique (m_ccw (pl_mesh _ _ HP) X LX) (m_ccw (pl_mesh _ _ HP) Y LY) PR PQ) as [-> _]. left; auto.
      * intros Q PQ. right. auto.
    + destruct P as [c l]. cbn [fst] in *. subst c. destruct (ix_cases j l) as [->|[->| ->]].
      * split; [exact TY|]. intros [c' l'] PQ.
        destruct (paired_unique (m_ccw (pl_mesh _ _ HP) Y LY) (m_ccw (pl_mesh _ _ HP) X LX) (paired_sym PR) PQ) as [-> _]. right. apply CO.
      * exfalso. unfold pedge in XC. cbn [fst snd] in XC. rewrite nxt_nxt, prv_nxt in XC. apply pcross_swap in XC. revert XC. apply pcross_share.
      * exfalso. unfold pedge in XC. cbn [fst snd] in XC. rewrite nxt_prv, prv_prv in XC. revert XC. apply pcross_share.
  - constructor; auto.
    + split; [right; apply CO|]. apply (co_in _ _ _ _ _ _ _ _ _ _ _ _ CO). apply CO.
    + exists i. auto.
    + intros c l Sc Lc Nc Q. destruct m as [[[H h1] h2]|].
      * cbn [off] in SO. apply (nf_q _ _ _ _ _ _ _ _ NF c l); auto. intros ->. auto.
      * destruct NF as [_ NF]. rewrite (tf_q _ _ _ _ NF) in Q. destruct (VV c l Sc Lc Nc) as [R|[R|R]]; rewrite Q in R; [congruence|eapply Rt_apex; eauto|eapply Lf_apex; eauto].
  - split; auto. split; auto. rewrite Y1, Y2. split.
    + pose proof (Lf_cone _ _ _ _ _ H12 DC LV).
      rewrite (orient_rot (zc e) (zc (tv ts Y j))), orient_swap'. lia.
    + pose proof (Rt_cone _ _ _ _ _ H12 DC RU). rewrite (orient_rot (zc e) (zc (tv ts Y j))), orient_swap'. lia.
Qed.
End Start.
End S.
