(** * Corridor: the triangles crossed by a segment, and the flips that remove its crossings *)
From Coq Require Import List Arith Bool Lia ZArith.
From Verif Require Import Base Num Shape ShapeSpec Utils Points Triangles Front Sweeper Cdt Lists Monad Traverse Exact
  FrontSpec Geom Mesh Rotate Setup Legal Legalize Boundary Chain Winding Cover CoverRun Remap Attach FrontInv Disc Good Marks LegalTotal Cone Planar.
Import ListNotations.

Lemma src_in a i b j P : fst P = a \/ fst P = b -> fst (src a i b j P) = a \/ fst (src a i b j P) = b.
Proof. unfold src. intro H. repeat destruct (pos_dec _ _); cbn [fst]; auto. Qed.

(** ** sequences of flips of unmarked edges between triangles of S *)
Section Fl.
Variable N : nat.
Variable zc : nat -> zpt.
Inductive fl (S : nat -> Prop) : TriangleStore -> TriangleStore -> Prop :=
| fl_refl ts : fl S ts ts
| fl_step ts a i b j need ts1 ts2 : flipspec N zc ts a i b j need false ts1 -> S a -> S b -> tc ts a i = false -> mesh N zc ts -> flags_agree ts ->
    fl S ts1 ts2 -> fl S ts ts2.
Lemma fl_trans S a b c : fl S a b -> fl S b c -> fl S a c.
Proof. induction 1; auto. intro. eapply fl_step; eauto. Qed.
Lemma fl_mono (S S' : nat -> Prop) ts ts' : (forall c, S c -> S' c) -> fl S ts ts' -> fl S' ts ts'.
Proof. intro H. induction 1; [constructor|]. eapply fl_step; eauto. Qed.
Lemma fl_one (S : nat -> Prop) ts a i b j need ts1 : flipspec N zc ts a i b j need false ts1 -> S a -> S b -> tc ts a i = false -> mesh N zc ts -> flags_agree ts -> fl S ts ts1.
Proof. intros. eapply fl_step; eauto. constructor. Qed.
Lemma fl_len S ts ts' : fl S ts ts' -> length ts' = length ts.
Proof. induction 1; auto. rewrite IHfl. eapply fs_len; eauto. Qed.
Lemma fl_out S ts ts' c k : fl S ts ts' -> ~ S c -> tv ts' c k = tv ts c k.
Proof. intros H NC. induction H; auto. rewrite IHfl. eapply fs_out; eauto; intros ->; auto. Qed.
(** the vertices of a triangle come from itself or from triangles of S *)
Lemma fl_in S ts ts' : fl S ts ts' -> forall c k, c < length ts -> exists c' k', (c' = c \/ S c') /\ c' < length ts /\ tv ts' c k = tv ts c' k'.
Proof.
  induction 1 as [|ts a i b j need ts1 ts2 F Sa Sb T M FA H IH]; intros c k Lc; [exists c, k; auto|].
  pose proof (fs_len _ _ _ _ _ _ _ _ _ _ F) as LL. pose proof (fs_paired _ _ _ _ _ _ _ _ _ _ F) as PR.
  assert (La : a < length ts) by apply PR. assert (Lb : b < length ts) by apply PR.
  destruct (IH c k) as (c' & k' & Sc' & Lc' & ->); [unfold TriangleStore in *; rewrite LL; auto|].
  assert (Lc1 : c' < length ts) by (unfold TriangleStore in *; rewrite LL in Lc'; auto).
  destruct (Nat.eq_dec c' a) as [->|Na]; [|destruct (Nat.eq_dec c' b) as [->|Nb]].
  - destruct (fs_a _ _ _ _ _ _ _ _ _ _ F) as (A1 & A2 & A3). destruct (ix_cases i k') as [->|[->| ->]]; [exists a, (prv i)|exists a, i|exists b, j]; auto.
  - destruct (fs_b _ _ _ _ _ _ _ _ _ _ F) as (A1 & A2 & A3). destruct (ix_cases j k') as [->|[->| ->]]; [exists a, (nxt i)|exists b, j|exists a, i]; auto.
  - exists c', k'. split; auto. split; auto. eapply fs_out; eauto.
Qed.
Lemma fl_keeps S ts ts' : fl S ts ts' -> keeps ts ts' /\ keeps ts' ts.
Proof.
  induction 1 as [|ts a i b j need ts1 ts2 F Sa Sb T M FA H [IH1 IH2]]; [split; apply keeps_refl|].
  split; [eapply keeps_trans; [eapply flip_keeps; eauto|exact IH1]|eapply keeps_trans; [exact IH2|eapply flip_keeps_back; eauto]].
Qed.
Lemma fl_mesh S ts ts' : fl S ts ts' -> mesh N zc ts -> mesh N zc ts'.
Proof. induction 1; auto. intros _. apply IHfl. eapply fs_mesh; eauto. Qed.
Lemma fl_agree S ts ts' : fl S ts ts' -> flags_agree ts -> flags_agree ts'.
Proof. induction 1; auto. intros _. apply IHfl. eapply fs_agree; eauto. Qed.

(** no edge of a triangle of S crossing the segment x-y is marked, and the triangle beyond is in S *)
Definition SL (S : nat -> Prop) (x y : nat) (ts : TriangleStore) : Prop :=
  forall P, fst P < length ts -> S (fst P) -> pcross (zc (fst (pedge ts P))) (zc (snd (pedge ts P))) (zc x) (zc y) ->
  ptc ts P = false /\ forall Q, ppaired ts P Q -> S (fst Q).
Lemma SL_flip (S : nat -> Prop) x y ts a i b j need ts' : flipspec N zc ts a i b j need false ts' -> S a -> S b -> tc ts a i = false -> flags_agree ts -> SL S x y ts -> SL S x y ts'.
Proof.
  intros F Sa Sb T FA H P LP SP X. pose proof (fs_len _ _ _ _ _ _ _ _ _ _ F) as LL. pose proof (fs_paired _ _ _ _ _ _ _ _ _ _ F) as PR.
  assert (La : a < length ts) by apply PR. assert (Lb : b < length ts) by apply PR. rewrite LL in LP.
  destruct (pos_dec P (a, i)) as [->|N1].
  { split; [rewrite (proj1 (fs_tcd _ _ _ _ _ _ _ _ _ _ F)); unfold ptc; cbn [fst snd]; rewrite <- (FA _ _ _ _ PR), T; reflexivity|].
    intros Q PQ. destruct (fs_diag_inv _ _ _ _ _ _ _ _ _ _ F (a, i) Q (or_introl eq_refl) PQ) as [->| ->]; auto. }
  destruct (pos_dec P (b, j)) as [->|N2].
  { split; [rewrite (proj2 (fs_tcd _ _ _ _ _ _ _ _ _ _ F)); unfold ptc; cbn [fst snd]; rewrite <- (FA _ _ _ _ PR), T; reflexivity|].
    intros Q PQ. destruct (fs_diag_inv _ _ _ _ _ _ _ _ _ _ F (b, j) Q (or_intror eq_refl) PQ) as [->| ->]; auto. }
  assert (DP : ~ diag a i b j P) by (intros [|]; auto).
  assert (SS : forall Q, S (fst (src a i b j Q)) <-> S (fst Q)).
  { intro Q. destruct (Nat.eq_dec (fst Q) a) as [Ea|Na]; [|destruct (Nat.eq_dec (fst Q) b) as [Eb|Nb]].
    - destruct (src_in a i b j Q (or_introl Ea)) as [->| ->]; rewrite Ea; tauto.
    - destruct (src_in a i b j Q (or_intror Eb)) as [->| ->]; rewrite Eb; tauto.
    - rewrite (src_out a i b j Q Na Nb). tauto. }
  assert (LS : fst (src a i b j P) < length ts).
  { destruct (Nat.eq_dec (fst P) a) as [Ea|Na]; [|destruct (Nat.eq_dec (fst P) b) as [Eb|Nb]].
    - destruct (src_in a i b j P (or_introl Ea)) as [->| ->]; auto.
    - destruct (src_in a i b j P (or_intror Eb)) as [->| ->]; auto.
    - rewrite (src_out a i b j P Na Nb). auto. }
  destruct (fs_edge _ _ _ _ _ _ _ _ _ _ F P DP) as [E1 E2].
  assert (PE : pedge ts' P = pedge ts (src a i b j P)) by (unfold pedge; rewrite E1, E2; reflexivity). rewrite PE in X.
  destruct (H _ LS (proj2 (SS P) SP) X) as [H1 H2]. split.
  - rewrite (proj2 (fs_agree _ _ _ _ _ _ _ _ _ _ F FA) P DP LP). exact H1.
  - intros Q PQ. apply SS. apply H2. apply (fs_inv _ _ _ _ _ _ _ _ _ _ F P Q DP PQ).
Qed.
Lemma SL_fl (S S' : nat -> Prop) x y ts ts' : (forall c, S' c -> S c) -> fl S' ts ts' -> SL S x y ts -> SL S x y ts'.
Proof. intros HS. induction 1; auto. intro. apply IHfl. eapply SL_flip; eauto. Qed.
End Fl.

(** ** planar states *)
Section S.
Context {A : Arith} {E : Exact A}.
Variable points : Points.
Hypothesis PP : proper points.
Hypothesis NC : nocol points.
Notation N := (npts points).
Notation zc := (zc points).
Notation bnd := (boundary (ps_head points) (ps_tail points)).
Notation fl := (fl N zc).
Notation SL := (SL zc).
Local Open Scope Z_scope.

Record PL (ts : TriangleStore) : Prop := {
  pl_mesh : mesh N zc ts;
  pl_agree : flags_agree ts;
  pl_front : exists af R, front_ok points af /\ bnd ts (nodes af) R []
}.
Lemma pl_inside ts t i c k : PL ts -> (t < length ts)%nat -> (c < length ts)%nat ->
  strictly_inside (zc (tv ts t (nxt i))) (zc (tv ts t (prv i))) (zc (tv ts t i)) (zc (tv ts c k)) -> False.
Proof using PP. intros [M _ (af & R & FO & B)]. eapply no_vertex_inside; eauto. Qed.
Lemma pl_cross ts P Q : PL ts -> (fst P < length ts)%nat -> (fst Q < length ts)%nat ->
  ~ pcross (zc (fst (pedge ts P))) (zc (snd (pedge ts P))) (zc (fst (pedge ts Q))) (zc (snd (pedge ts Q))).
Proof using PP. intros [M _ (af & R & FO & B)]. eapply no_crossing; eauto. Qed.
Lemma pl_unique ts P Q : PL ts -> (fst P < length ts)%nat -> (fst Q < length ts)%nat -> pedge ts P = pedge ts Q -> P = Q.
Proof using PP. intros [M _ (af & R & FO & B)]. eapply edge_unique; eauto. Qed.
Lemma pl_ccw ts t i : PL ts -> (t < length ts)%nat -> 0 < orient (zc (tv ts t i)) (zc (tv ts t (nxt i))) (zc (tv ts t (prv i))).
Proof using. intros [M _ _] L. exact (proj1 (tccw_at i) (m_ccw M t L)). Qed.

(** orientations of three different points are not zero *)
Lemma or_nz a b c : (a < N)%nat -> (b < N)%nat -> (c < N)%nat -> a <> b -> b <> c -> a <> c -> orient (zc a) (zc b) (zc c) <> 0.
Proof using NC. apply NC. Qed.
Lemma zc_ne a b : zc a <> zc b -> a <> b.
Proof using. congruence. Qed.

Lemma cone_exit e u v op t : orient u v t * orient e op t + orient v op t * orient e u t + orient op u t * orient e v t = 0.
Proof using. unfold orient. zpts. ring. Qed.

(** *** the first triangle *)
(** t has the apex eq and ep is between its two sides *)
Definition FI (ts : TriangleStore) (ep eq t : nat) (i : ix) : Prop :=
  (t < length ts)%nat /\ tv ts t i = eq /\ in_cone (zc eq) (zc (tv ts t (nxt i))) (zc (tv ts t (prv i))) (zc ep).

Lemma vertex_lt ts v : PL ts -> vertex ts v -> (v < N)%nat.
Proof using. intros H (c & k & L & <-). apply (m_range (pl_mesh _ H)); auto. Qed.
(** ... then ep is beyond the opposite side *)
Lemma FI_far ts ep eq t i : PL ts -> vertex ts ep -> FI ts ep eq t i -> orient (zc (tv ts t (nxt i))) (zc (tv ts t (prv i))) (zc ep) < 0.
Proof using PP NC.
  intros H V (L & E1 & [C1 C2]). pose proof (vertex_lt _ _ H V) as Lep. destruct V as (c & k & Lc & <-).
  pose proof (m_range (pl_mesh _ H) t) as MR. pose proof (tccw_distinct (m_ccw (pl_mesh _ H) t L)) as DI.
  destruct (Z_lt_le_dec (orient (zc (tv ts t (nxt i))) (zc (tv ts t (prv i))) (zc (tv ts c k))) 0) as [|G]; auto. exfalso.
  apply (pl_inside ts t i c k H L Lc). unfold strictly_inside. rewrite E1. repeat split.
  - assert (X : orient (zc (tv ts t (nxt i))) (zc (tv ts t (prv i))) (zc (tv ts c k)) <> 0); [|lia].
    apply or_nz; auto.
    + intro Q. apply DI in Q. destruct i; discriminate.
    + intro Q. rewrite <- Q in C2. rewrite (proj2 (proj2 (orient_diag _ _))) in C2. lia.
    + intro Q. rewrite <- Q in C1. rewrite (proj2 (proj2 (orient_diag _ _))) in C1. lia.
  - rewrite orient_swap. lia.
  - exact C1.
Qed.

(** *** corridors *)
Definition RL (e p1 p2 x y : zpt) : Prop := (Rt e p1 p2 x /\ Lf e p1 p2 y) \/ (Lf e p1 p2 x /\ Rt e p1 p2 y).
Record Cor (ts : TriangleStore) (S : nat -> Prop) (ep e p1 p2 : nat) (H : nat) (i : ix) (C : list nat) (X : nat) (k : ix) : Prop := {
  co_in : forall c, In c C -> (c < length ts)%nat /\ S c;
  co_H : In H C;
  co_He : tv ts H i = e /\ tv ts H (nxt i) = p1 /\ tv ts H (prv i) = p2;
  co_cone : in_cone (zc e) (zc p1) (zc p2) (zc ep);
  co_v : forall c l, In c C -> c <> H -> Rt (zc e) (zc p1) (zc p2) (zc (tv ts c l)) \/ Lf (zc e) (zc p1) (zc p2) (zc (tv ts c l));
  co_e : forall P, In (fst P) C -> RL (zc e) (zc p1) (zc p2) (zc (fst (pedge ts P))) (zc (snd (pedge ts P))) ->
    ptc ts P = false /\ (P = (X, k) \/ forall Q, ppaired ts P Q -> In (fst Q) C);
  co_X : In X C;
  co_R : Rt (zc e) (zc p1) (zc p2) (zc (tv ts X (nxt k)));
  co_L : Lf (zc e) (zc p1) (zc p2) (zc (tv ts X (prv k)));
  co_uv : 0 < orient (zc e) (zc (tv ts X (nxt k))) (zc (tv ts X (prv k)));
  co_far : orient (zc (tv ts X (nxt k))) (zc (tv ts X (prv k))) (zc ep) < 0
}.
Lemma exit_cross e p1 p2 u v ep : 0 < orient e p1 p2 -> in_cone e p1 p2 ep -> Rt e p1 p2 u -> Lf e p1 p2 v -> 0 < orient e u v -> orient u v ep < 0 -> pcross u v ep e.
Proof using.
  intros H12 CE R L UV FA. apply cone_pcross; auto. split; [exact (Rt_cone _ _ _ _ _ H12 CE R)|exact (Lf_cone _ _ _ _ _ H12 CE L)].
Qed.
Section Cor.
Variables (ts : TriangleStore) (S : nat -> Prop) (ep e p1 p2 H : nat) (i : ix).
Hypothesis HP : PL ts.
Hypothesis HV : vertex ts ep.
Hypothesis HSL : SL S ep e ts.

Lemma cor_12 C X k : Cor ts S ep e p1 p2 H i C X k -> 0 < orient (zc e) (zc p1) (zc p2).
Proof using HP. clear HV HSL. intros CO. destruct (co_He _ _ _ _ _ _ _ _ _ _ _ CO) as (<- & <- & <-). apply pl_ccw; [exact HP|]. exact (proj1 (co_in _ _ _ _ _ _ _ _ _ _ _ CO H (co_H _ _ _ _ _ _ _ _ _ _ _ CO))). Qed.

(** the exit is not marked and the triangle beyond is in S *)
Lemma cor_exit C X k : Cor ts S ep e p1 p2 H i C X k -> ptc ts (X, k) = false /\ forall Q, ppaired ts (X, k) Q -> S (fst Q).
Proof using HP HSL.
  intro CO. pose proof (cor_12 _ _ _ CO) as H12. destruct (co_in _ _ _ _ _ _ _ _ _ _ _ CO X (co_X _ _ _ _ _ _ _ _ _ _ _ CO)) as [LX SX].
  apply HSL; auto. unfold pedge. cbn [fst snd]. eapply exit_cross; eauto; apply CO.
Qed.
Lemma cor_start : FI ts ep e H i -> tv ts H (nxt i) = p1 -> tv ts H (prv i) = p2 -> S H -> Cor ts S ep e p1 p2 H i [H] H i.
Proof using PP NC HP HV HSL.
  intros F E1 E2 SH. pose proof F as (L & E0 & C). pose proof (FI_far _ _ _ _ _ HP HV F) as FA.
  pose proof (pl_ccw ts H i HP L) as CC. rewrite E0, E1, E2 in *.
  assert (X : ptc ts (H, i) = false).
  { apply (HSL (H, i)); auto. unfold pedge. cbn [fst snd]. rewrite E1, E2. apply cone_pcross; auto. }
  constructor; rewrite ?E1, ?E2; try (left; reflexivity); try exact CC; try exact FA; try exact C; auto.
  - intros c [<-|[]]; auto.
  - intros c l [<-|[]] Q. congruence.
  - intros [c l] [Q|[]] R. cbn [fst] in Q. subst c. destruct (ix_cases i l) as [->|[->| ->]]; [auto|exfalso|exfalso].
    + unfold pedge in R. cbn [fst snd] in R. rewrite prv_nxt, E0 in R. destruct R as [[_ R]|[_ R]]; [eapply Lf_apex|eapply Rt_apex]; eauto.
    + unfold pedge in R. cbn [fst snd] in R. rewrite nxt_prv, E0 in R. destruct R as [[R _]|[R _]]; [eapply Rt_apex|eapply Lf_apex]; eauto.
Qed.

Section Step.
Variables (C : list nat) (X : nat) (k : ix) (Y : nat) (j : ix).
Hypothesis CO : Cor ts S ep e p1 p2 H i C X k.
Hypothesis PR : paired ts X k Y j.
Notation op := (tv ts Y j).

Lemma st_Y : tv ts Y (prv j) = tv ts X (nxt k) /\ tv ts Y (nxt j) = tv ts X (prv k) /\ (Y < length ts)%nat /\ S Y.
Proof using HP HSL CO PR.
  pose proof PR as (_ & LY & _ & _ & O1 & O2). repeat split; auto. apply (proj2 (cor_exit _ _ _ CO) (Y, j)). exact PR.
Qed.
Lemma st_lt : (e < N)%nat /\ (p1 < N)%nat /\ (p2 < N)%nat /\ (op < N)%nat /\ (ep < N)%nat.
Proof using HP HV HSL CO PR.
  pose proof (m_range (pl_mesh _ HP)) as MR. destruct (co_in _ _ _ _ _ _ _ _ _ _ _ CO H (co_H _ _ _ _ _ _ _ _ _ _ _ CO)) as [LH _].
  destruct (co_He _ _ _ _ _ _ _ _ _ _ _ CO) as (<- & <- & <-). repeat split; try (apply MR; auto); [apply PR|eapply vertex_lt; eauto].
Qed.
Lemma st_far : orient (zc (tv ts X (nxt k))) (zc (tv ts X (prv k))) (zc op) < 0.
Proof using HP HSL CO PR.
  destruct st_Y as (Y1 & Y2 & LY & _). pose proof (pl_ccw ts Y j HP LY) as CC. rewrite Y1, Y2 in CC.
  rewrite <- orient_rot, orient_swap in CC. lia.
Qed.
(** the apex is not a vertex of the triangle beyond *)
Lemma st_ne : op <> e.
Proof using HP HSL CO PR.
  intro Q. pose proof st_far as F. rewrite Q in F. pose proof (co_uv _ _ _ _ _ _ _ _ _ _ _ CO) as U. rewrite orient_rot in F. lia.
Qed.
Lemma st_YH : Y <> H.
Proof using HP HSL CO PR.
  intros YH. pose proof (cor_12 _ _ _ CO) as H12. destruct st_Y as (Y1 & Y2 & _ & _).
  destruct (co_He _ _ _ _ _ _ _ _ _ _ _ CO) as (E0 & _ & _). rewrite <- YH in E0.
  destruct (ix_cases j i) as [Q|[Q|Q]]; rewrite Q in E0.
  - apply st_ne; auto.
  - apply (Lf_apex _ _ _ H12). rewrite <- E0 at 2. rewrite Y2. apply CO.
  - apply (Rt_apex _ _ _ H12). rewrite <- E0 at 2. rewrite Y1. apply CO.
Qed.
Lemma st_agree : ptc ts (Y, j) = false.
Proof using HP HSL CO PR. unfold ptc. cbn [fst snd]. rewrite <- (pl_agree _ HP _ _ _ _ PR). apply (cor_exit _ _ _ CO). Qed.

Section Out.
Hypothesis OUT : ~ in_cone (zc e) (zc p1) (zc p2) (zc op).
Lemma st_nep : op <> ep.
Proof using OUT CO. intro Q. apply OUT. rewrite Q. apply CO. Qed.
Lemma st_nz : orient (zc e) (zc op) (zc ep) <> 0.
Proof using NC HP HV HSL CO PR OUT.
  pose proof st_lt as (L1 & L2 & L3 & L4 & L5). apply or_nz; auto.
  - intro Q. apply st_ne. auto.
  - apply st_nep.
  - pose proof (cor_12 _ _ _ CO) as H12. pose proof (co_cone _ _ _ _ _ _ _ _ _ _ _ CO) as [C1 _]. intros Q. rewrite <- Q in C1. rewrite (proj1 (proj2 (orient_diag _ _))) in C1. lia.
Qed.
Let G1 : zc op <> zc p1 -> orient (zc e) (zc op) (zc p1) <> 0.
Proof using NC HP HV HSL CO PR.
  intro D. pose proof st_lt as (L1 & L2 & L3 & L4 & L5). pose proof (cor_12 _ _ _ CO) as H12. apply or_nz; auto.
  - intro Q. apply st_ne. auto.
  - intros Q. rewrite Q in H12. rewrite (proj1 (orient_diag _ _)) in H12. lia.
Qed.
Let G2 : zc op <> zc p2 -> orient (zc e) (zc op) (zc p2) <> 0.
Proof using NC HP HV HSL CO PR.
  intro D. pose proof st_lt as (L1 & L2 & L3 & L4 & L5). pose proof (cor_12 _ _ _ CO) as H12. apply or_nz; auto.
  - intro Q. apply st_ne. auto.
  - intros Q. rewrite Q in H12. rewrite (proj1 (proj2 (orient_diag _ _))) in H12. lia.
Qed.
(** the part common to both directions *)
Lemma st_common k' : k' = prv j \/ k' = nxt j ->
  (Rt (zc e) (zc p1) (zc p2) (zc op) /\ k' = prv j \/ Lf (zc e) (zc p1) (zc p2) (zc op) /\ k' = nxt j) ->
  0 < orient (zc e) (zc (tv ts Y (nxt k'))) (zc (tv ts Y (prv k'))) ->
  orient (zc (tv ts Y (nxt k'))) (zc (tv ts Y (prv k'))) (zc ep) < 0 ->
  Cor ts S ep e p1 p2 H i (Y :: C) Y k'.
Proof using HP HSL CO PR.
  intros K K2 UV FA. pose proof (cor_12 _ _ _ CO) as H12. destruct st_Y as (Y1 & Y2 & LY & SY). pose proof st_YH as NH.
  assert (RU := co_R _ _ _ _ _ _ _ _ _ _ _ CO). assert (LV := co_L _ _ _ _ _ _ _ _ _ _ _ CO).
  assert (RK : Rt (zc e) (zc p1) (zc p2) (zc (tv ts Y (nxt k')))).
  { destruct K2 as [[R ->]|[L ->]]; [rewrite nxt_prv; auto|rewrite nxt_nxt, Y1; auto]. }
  assert (LK : Lf (zc e) (zc p1) (zc p2) (zc (tv ts Y (prv k')))).
  { destruct K2 as [[R ->]|[L ->]]; [rewrite prv_prv, Y2; auto|rewrite prv_nxt; auto]. }
  constructor; auto.
  - intros c [<-|Hc]; auto. apply (co_in _ _ _ _ _ _ _ _ _ _ _ CO); auto.
  - right. apply CO.
  - apply CO.
  - apply CO.
  - intros c l [<-|Hc] Nc; [|apply (co_v _ _ _ _ _ _ _ _ _ _ _ CO); auto].
    destruct (ix_cases j l) as [->|[->| ->]]; [tauto|right; rewrite Y2; auto|left; rewrite Y1; auto].
  - intros P [Q|HPc] R.
    + destruct P as [c l]. cbn [fst] in Q. subst c. destruct (ix_eq_dec l k') as [->|Nk].
      * split; auto. apply HSL; auto. unfold pedge. cbn [fst snd]. eapply exit_cross; eauto. apply CO.
      * destruct (ix_eq_dec l j) as [->|Nj].
        -- split; [apply st_agree|]. right. intros [c' l'] PQ. apply paired_sym in PQ.
           destruct (paired_unique (m_ccw (pl_mesh _ HP) Y LY) (m_ccw (pl_mesh _ HP) X ltac:(apply PR)) (paired_sym PR) (paired_sym PQ)) as [-> _]. right. apply CO.
        -- exfalso. unfold pedge in R. cbn [fst snd] in R. destruct K2 as [[R2 ->]|[L2 ->]].
           ++ assert (l = nxt j) as -> by (destruct (ix_cases j l) as [->|[->| ->]]; congruence). rewrite nxt_nxt, prv_nxt, Y1 in R.
              destruct R as [[_ R]|[R _]]; [apply (Rt_Lf _ _ _ _ H12 R2 R)|apply (Rt_Lf _ _ _ _ H12 RU R)].
           ++ assert (l = prv j) as -> by (destruct (ix_cases j l) as [->|[->| ->]]; congruence). rewrite nxt_prv, prv_prv, Y2 in R.
              destruct R as [[R _]|[_ R]]; [apply (Rt_Lf _ _ _ _ H12 R L2)|apply (Rt_Lf _ _ _ _ H12 R LV)].
    + destruct (co_e _ _ _ _ _ _ _ _ _ _ _ CO P HPc R) as [T [->|TQ]]; split; auto; right.
      * intros [c' l'] PQ. destruct (paired_unique (m_ccw (pl_mesh _ HP) X ltac:(apply PR)) (m_ccw (pl_mesh _ HP) Y LY) PR PQ) as [-> _]. left; auto.
      * intros Q PQ. right. auto.
  - left; auto.
Qed.
Lemma not_in_Y : orient (zc (tv ts X (prv k))) (zc (tv ts X (nxt k))) (zc ep) > 0 -> 
  0 < orient (zc op) (zc (tv ts X (prv k))) (zc ep) -> 0 < orient (zc (tv ts X (nxt k))) (zc op) (zc ep) -> False.
Proof using PP HP HV HSL CO PR.
  intros I1 I2 I3. destruct st_Y as (Y1 & Y2 & LY & SY). destruct HV as (c & l & Lc & <-). apply (pl_inside ts Y j c l HP LY Lc).
  unfold strictly_inside. rewrite Y1, Y2. repeat split; auto; lia.
Qed.
Lemma st_right : 0 < orient (zc e) (zc op) (zc ep) -> Cor ts S ep e p1 p2 H i (Y :: C) Y (prv j).
Proof using PP NC HP HV HSL CO PR OUT.
  intro O. pose proof (cor_12 _ _ _ CO) as H12. destruct st_Y as (Y1 & Y2 & LY & SY). pose proof st_lt as (L1 & L2 & L3 & L4 & L5).
  assert (RU := co_R _ _ _ _ _ _ _ _ _ _ _ CO). assert (LV := co_L _ _ _ _ _ _ _ _ _ _ _ CO). assert (T := co_cone _ _ _ _ _ _ _ _ _ _ _ CO).
  destruct (step_right _ _ _ _ _ _ _ H12 T RU LV (co_uv _ _ _ _ _ _ _ _ _ _ _ CO) st_far OUT G1 G2 O) as [R1 R2].
  apply st_common; auto; rewrite nxt_prv, prv_prv, Y2; auto.
  destruct (Z_lt_le_dec (orient (zc op) (zc (tv ts X (prv k))) (zc ep)) 0) as [|G]; auto. exfalso.
  assert (NZ : orient (zc op) (zc (tv ts X (prv k))) (zc ep) <> 0).
  { apply or_nz; auto.
    - rewrite <- Y2. apply (m_range (pl_mesh _ HP)); auto.
    - intro Q. rewrite Q in R1. apply (Rt_Lf _ _ _ _ H12 R1 LV).
    - intro Q. rewrite Q in LV. apply (cone_not_Lf _ _ _ _ H12 T LV).
    - apply st_nep. }
  pose proof (co_far _ _ _ _ _ _ _ _ _ _ _ CO) as FA. pose proof (Rt_cone _ _ _ _ _ H12 T RU) as U1. pose proof (Lf_cone _ _ _ _ _ H12 T LV) as V1.
  apply not_in_Y; [rewrite orient_swap; lia|lia|].
  pose proof (cone_exit (zc e) (zc (tv ts X (nxt k))) (zc (tv ts X (prv k))) (zc op) (zc ep)) as CE.
  rewrite (orient_swap (zc (tv ts X (nxt k))) (zc op)) in CE. rewrite (orient_swap (zc op) (zc (tv ts X (prv k)))) in CE.
  set (a := orient (zc (tv ts X (nxt k))) (zc (tv ts X (prv k))) (zc ep)) in *. set (b := orient (zc op) (zc (tv ts X (prv k))) (zc ep)) in *.
  set (c := orient (zc (tv ts X (nxt k))) (zc op) (zc ep)) in *.
  set (fo := orient (zc e) (zc op) (zc ep)) in *. set (fu := orient (zc e) (zc (tv ts X (nxt k))) (zc ep)) in *. set (fv := orient (zc e) (zc (tv ts X (prv k))) (zc ep)) in *.
  clearbody a b c fo fu fv. apply (pos_of (- fv) c (- a * fo + b * fu)); [lia|lia|].
  pose proof (Z.mul_pos_pos (- a) fo ltac:(lia) O). pose proof (Z.mul_pos_pos b fu ltac:(lia) U1). lia.
Qed.
Lemma st_left : orient (zc e) (zc op) (zc ep) < 0 -> Cor ts S ep e p1 p2 H i (Y :: C) Y (nxt j).
Proof using PP NC HP HV HSL CO PR OUT.
  intro O. pose proof (cor_12 _ _ _ CO) as H12. destruct st_Y as (Y1 & Y2 & LY & SY). pose proof st_lt as (L1 & L2 & L3 & L4 & L5).
  assert (RU := co_R _ _ _ _ _ _ _ _ _ _ _ CO). assert (LV := co_L _ _ _ _ _ _ _ _ _ _ _ CO). assert (T := co_cone _ _ _ _ _ _ _ _ _ _ _ CO).
  destruct (step_left _ _ _ _ _ _ _ H12 T RU LV (co_uv _ _ _ _ _ _ _ _ _ _ _ CO) st_far OUT G1 G2 O) as [R1 R2].
  apply st_common; auto; rewrite nxt_nxt, prv_nxt, Y1; auto.
  destruct (Z_lt_le_dec (orient (zc (tv ts X (nxt k))) (zc op) (zc ep)) 0) as [|G]; auto. exfalso.
  assert (NZ : orient (zc (tv ts X (nxt k))) (zc op) (zc ep) <> 0).
  { apply or_nz; auto.
    - rewrite <- Y1. apply (m_range (pl_mesh _ HP)); auto.
    - intro Q. rewrite Q in RU. apply (Rt_Lf _ _ _ _ H12 RU R1).
    - apply st_nep.
    - intro Q. rewrite Q in RU. apply (cone_not_Rt _ _ _ _ H12 T RU). }
  pose proof (co_far _ _ _ _ _ _ _ _ _ _ _ CO) as FA. pose proof (Rt_cone _ _ _ _ _ H12 T RU) as U1. pose proof (Lf_cone _ _ _ _ _ H12 T LV) as V1.
  apply not_in_Y; [rewrite orient_swap; lia| |lia].
  pose proof (cone_exit (zc e) (zc (tv ts X (nxt k))) (zc (tv ts X (prv k))) (zc op) (zc ep)) as CE.
  rewrite (orient_swap (zc (tv ts X (nxt k))) (zc op)) in CE. rewrite (orient_swap (zc op) (zc (tv ts X (prv k)))) in CE.
  set (a := orient (zc (tv ts X (nxt k))) (zc (tv ts X (prv k))) (zc ep)) in *. set (b := orient (zc op) (zc (tv ts X (prv k))) (zc ep)) in *.
  set (c := orient (zc (tv ts X (nxt k))) (zc op) (zc ep)) in *.
  set (fo := orient (zc e) (zc op) (zc ep)) in *. set (fu := orient (zc e) (zc (tv ts X (nxt k))) (zc ep)) in *. set (fv := orient (zc e) (zc (tv ts X (prv k))) (zc ep)) in *.
  clearbody a b c fo fu fv. apply (pos_of fu b (- a * - fo + c * - fv)); [lia|lia|].
  pose proof (Z.mul_pos_pos (- a) (- fo) ltac:(lia) ltac:(lia)). pose proof (Z.mul_pos_pos c (- fv) ltac:(lia) ltac:(lia)). lia.
Qed.
End Out.
End Step.
End Cor.
End S.
