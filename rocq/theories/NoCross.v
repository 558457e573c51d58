(** * NoCross: once the front has been filled, no edge of its boundary crosses the edge to be inserted *)
From Coq Require Import List Arith Bool Lia ZArith.
From Verif Require Import Base Num Shape ShapeSpec Utils Points Triangles Front Sweeper Cdt F64 Lists Monad Traverse TraceSpec Grow Exact
  FrontSpec Geom Mesh Rotate Setup Legal Legalize Boundary Chain Remap Attach FrontInv Disc Good Marks Flips Cone Planar Corridor Frames Insert Fills FanAll Total FrontSub FillTotal EdgeFill.
Import ListNotations.

Section Line.
Local Open Scope Z_scope.
Variables l r : zpt.
Hypothesis LR : fst l < fst r.
Notation h v := (ht l r v).
Lemma ht_l : h l = 0. Proof using. clear LR. unfold ht. apply (proj1 (proj2 (orient_diag l r))). Qed.
Lemma ht_r : h r = 0. Proof using. clear LR. unfold ht. apply (proj2 (proj2 (orient_diag l r))). Qed.
Lemma no_cross u w : fst u < fst w ->
  (fst l < fst u < fst r -> 0 <= h u) -> (fst l < fst w < fst r -> 0 <= h w) ->
  (fst u <= fst l <= fst w -> orient u w l <= 0) -> (fst u <= fst r <= fst w -> orient u w r <= 0) -> ~ pcross u w l r.
Proof using LR.
  intros UW HU HW OL OR [X1 X2]. pose proof (ht_id l r u w l) as IL. pose proof (ht_id l r u w r) as IR. rewrite ht_l in IL. rewrite ht_r in IR.
  change (orient l r u) with (h u) in X2. change (orient l r w) with (h w) in X2.
  assert (NP : ~ (orient u w l <= 0 /\ orient u w r <= 0)). { intros [Y1 Y2]. assert (0 <= (- orient u w l) * (- orient u w r)) by (apply mulnn; lia). lia. }
  assert (PP : ~ (0 <= orient u w l /\ 0 <= orient u w r)). { intros [Y1 Y2]. pose proof (mulnn _ _ Y1 Y2). lia. }
  set (K := fst r - fst l) in *. assert (KP : 0 < K) by (unfold K; lia).
  assert (NN : forall a, K * a <= 0 -> a <= 0). { intros a Ha. destruct (Z_lt_le_dec 0 a) as [Q|]; auto. pose proof (mulpos _ _ KP Q). lia. }
  assert (NP' : forall a, 0 <= K * a -> 0 <= a). { intros a Ha. destruct (Z_lt_le_dec a 0) as [Q|]; auto. pose proof (mulpos K (- a) KP ltac:(lia)). lia. }
  assert (DIF : K * orient u w r - K * orient u w l = K * (h u - h w)) by (rewrite IL, IR; unfold K; ring).
  assert (SG : (h u < 0 /\ 0 < h w) \/ (0 < h u /\ h w < 0)).
  { destruct (Z.lt_trichotomy (h u) 0) as [Q|[Q|Q]]; [left|rewrite Q in X2; lia|right]; split; auto.
    - destruct (Z_lt_le_dec 0 (h w)); auto. assert (0 <= (- h u) * (- h w)) by (apply mulnn; lia). lia.
    - destruct (Z_lt_le_dec (h w) 0); auto. assert (0 <= h u * h w) by (apply mulnn; lia). lia. }
  destruct SG as [[S1 S2]|[S1 S2]].
  - destruct (Z_lt_le_dec (fst u) (fst r)) as [C|C].
    + assert (C' : fst u <= fst l) by lia. apply NP.
      assert (Y : orient u w l <= 0).
      { destruct (Z_lt_le_dec (fst w) (fst l)) as [C2|C2]; [|apply OL; lia]. apply NN.
        pose proof (mulnn (- h u) (fst l - fst w) ltac:(lia) ltac:(lia)). pose proof (mulnn (h w) (fst l - fst u) ltac:(lia) ltac:(lia)). lia. }
      split; auto. apply NN. pose proof (mulnn K (h w - h u) ltac:(lia) ltac:(lia)). pose proof (mulnn K (- orient u w l) ltac:(lia) ltac:(lia)). lia.
    + apply PP. split; apply NP'.
      * pose proof (mulnn (- h u) (fst w - fst l) ltac:(lia) ltac:(lia)). pose proof (mulnn (h w) (fst u - fst l) ltac:(lia) ltac:(lia)). lia.
      * pose proof (mulnn (- h u) (fst w - fst r) ltac:(lia) ltac:(lia)). pose proof (mulnn (h w) (fst u - fst r) ltac:(lia) ltac:(lia)). lia.
  - destruct (Z_lt_le_dec (fst l) (fst w)) as [C|C].
    + assert (C' : fst r <= fst w) by lia. apply NP.
      assert (Y : orient u w r <= 0).
      { destruct (Z_lt_le_dec (fst r) (fst u)) as [C2|C2]; [|apply OR; lia]. apply NN.
        pose proof (mulnn (h u) (fst w - fst r) ltac:(lia) ltac:(lia)). pose proof (mulnn (- h w) (fst u - fst r) ltac:(lia) ltac:(lia)). lia. }
      split; auto. apply NN. pose proof (mulnn K (h u - h w) ltac:(lia) ltac:(lia)). pose proof (mulnn K (- orient u w r) ltac:(lia) ltac:(lia)). lia.
    + apply PP. split; apply NP'.
      * pose proof (mulnn (h u) (fst l - fst w) ltac:(lia) ltac:(lia)). pose proof (mulnn (- h w) (fst l - fst u) ltac:(lia) ltac:(lia)). lia.
      * pose proof (mulnn (h u) (fst r - fst w) ltac:(lia) ltac:(lia)). pose proof (mulnn (- h w) (fst r - fst u) ltac:(lia) ltac:(lia)). lia.
Qed.
End Line.
Lemma above_base h t e : (fst h < fst e < fst t)%Z -> (snd h < snd e)%Z -> (snd t < snd e)%Z -> (0 < orient h t e)%Z.
Proof.
  intros H1 H2 H3. assert (Q : orient h t e = ((fst t - fst h) * (snd e - snd h) - (snd t - snd h) * (fst e - fst h))%Z) by (zpts; ring). rewrite Q.
  destruct (Z_lt_le_dec (snd h) (snd t)) as [C|C].
  - pose proof (mulpos (fst t - fst e) (snd e - snd h) ltac:(lia) ltac:(lia)). pose proof (mulpos (fst e - fst h) (snd e - snd t) ltac:(lia) ltac:(lia)). lia.
  - pose proof (mulpos (fst t - fst h) (snd e - snd h) ltac:(lia) ltac:(lia)). pose proof (mulnn (snd h - snd t) (fst e - fst h) ltac:(lia) ltac:(lia)). lia.
Qed.

Section S.
Context {A : Arith} {E : Exact A}.
Variable dbg : bool.
Variable points : Points.
Hypothesis PP : proper points.
Notation N := (npts points).
Notation zc := (zc points).
Notation Good := (Good points).
Notation nid_ok := (nid_ok points).
Context {Ed : nat -> nat -> Prop}.
Notation gd := (gd (Ed:=Ed) points).
Notation TK := (TK points).
Notation enough := (enough points).
Notation Fuel := (Fuel points).
Notation sx := (sx points).

(** nothing above a front point *)
Lemma top_at D vs s w e : TK D vs s -> sx vs -> In w vs -> In e D -> fst (zc e) = fst (zc w) -> ~ xlt (zc w) (zc e).
Proof using.
  intros T SX IW HD Q0 XW. apply in_split in IW as (L & R & ->). pose proof XW as [X|[X1 X2]]; [lia|].
  destruct (tk_split points D _ s L w R T eq_refl) as (SL2 & SR2 & _).
  destruct (tk_below _ _ _ _ T e HD) as [I|(u' & w' & AD & Y1 & Y2 & Y3)].
  - assert (w = e) as ->; [|lia]. apply SX; auto. apply in_or_app. simpl. auto.
  - assert (XU : (fst (zc w) <= fst (zc u'))%Z).
    { apply adj_app in AD as [AD|AD].
      - exfalso. apply adj_in in AD as [_ AD]. apply in_app_or in AD as [AD|[<-|[]]]; [|apply (xlt_asym _ _ Y2 XW)].
        apply (xlt_asym _ _ XW). eapply xlt_trans; [exact Y2|]. apply SL2. exact AD.
      - apply adj_in in AD as [[->|AD] _]; [lia|]. specialize (SR2 _ AD). unfold xlt in SR2. lia. }
    unfold xlt in Y1, Y2. assert (orient (zc u') (zc e) (zc w') <= 0)%Z; [|lia].
    assert (fst (zc u') = fst (zc e) /\ snd (zc u') < snd (zc e))%Z as [Z1 Z2] by lia.
    assert (Q : orient (zc u') (zc e) (zc w') = ((fst (zc e) - fst (zc u')) * (snd (zc w') - snd (zc u')) - (snd (zc e) - snd (zc u')) * (fst (zc w') - fst (zc u')))%Z) by (zpts; ring).
    rewrite Q, Z1. assert (Z3 : (0 <= snd (zc e) - snd (zc u'))%Z) by lia. assert (Z4 : (0 <= fst (zc w') - fst (zc e))%Z) by lia. pose proof (mulnn _ _ Z3 Z4). lia.
Qed.
Lemma adj_lt D vs s u w : TK D vs s -> sx vs -> adj vs u w -> (fst (zc u) < fst (zc w))%Z.
Proof using.
  intros T SX AD. pose proof (adj_in _ _ _ AD) as [I1 I2]. apply adj_split in AD as (L & R & ->).
  destruct (tk_split points D _ s L u (w :: R) T eq_refl) as (_ & SR2 & _). eapply sx_lt; eauto. apply SR2. simpl. auto.
Qed.
Lemma adj_end D vs s u w e : TK D vs s -> sx vs -> In e D -> adj vs u w -> (fst (zc u) <= fst (zc e) <= fst (zc w))%Z -> (orient (zc u) (zc w) (zc e) <= 0)%Z.
Proof using.
  intros T SX HD AD XX. pose proof (adj_lt _ _ _ _ _ T SX AD) as UW. pose proof (adj_in _ _ _ AD) as [I1 I2].
  destruct (xlt_total (zc u) (zc e)) as [X|[X|X]].
  - destruct (xlt_total (zc e) (zc w)) as [Y|[Y|Y]].
    + apply adj_split in AD as (L & R & ->). pose proof (cover_at points D L u w R s e T HD X Y) as O. rewrite orient_swap'. lia.
    + rewrite Y. rewrite (proj2 (proj2 (orient_diag _ _))). lia.
    + exfalso. apply (top_at D vs s w e T SX I2 HD); auto. unfold xlt in Y. lia.
  - rewrite <- X. assert (Q : orient (zc u) (zc w) (zc u) = 0%Z) by (zpts; ring). lia.
  - assert (Q : orient (zc u) (zc w) (zc e) = ((fst (zc w) - fst (zc u)) * (snd (zc e) - snd (zc u)) - (snd (zc w) - snd (zc u)) * (fst (zc e) - fst (zc u)))%Z) by (zpts; ring).
    unfold xlt in X. assert (Z1 : fst (zc e) = fst (zc u)) by lia. rewrite Q, Z1. assert (U2 : (0 <= fst (zc w) - fst (zc u))%Z) by lia. assert (U3 : (0 <= snd (zc u) - snd (zc e))%Z) by lia. pose proof (mulnn _ _ U2 U3). lia.
Qed.

(** the front between the ends of the edge is not below the edge *)
Definition clear (p q : nat) (vs : list nat) : Prop := forall v, In v vs ->
  ((fst (zc q) < fst (zc v) < fst (zc p))%Z -> (0 <= ht (zc q) (zc p) (zc v))%Z) /\
  ((fst (zc p) < fst (zc v) < fst (zc q))%Z -> (0 <= ht (zc p) (zc q) (zc v))%Z).
Lemma adj_no_cross D vs s p q u w : TK D vs s -> sx vs -> In p D -> In q D -> In q vs -> clear p q vs -> adj vs u w -> ~ pcross (zc u) (zc w) (zc p) (zc q).
Proof using.
  intros T SX Dp Dq Iq CL AD. pose proof (adj_lt _ _ _ _ _ T SX AD) as UW. pose proof (adj_in _ _ _ AD) as [I1 I2].
  destruct (Z.lt_trichotomy (fst (zc p)) (fst (zc q))) as [X|[X|X]].
  - apply no_cross; auto; try (intro Y; apply CL; auto); intro Y; eapply adj_end; eauto.
  - intros [_ Q]. assert (OQ : forall v, orient (zc p) (zc q) (zc v) = ((snd (zc q) - snd (zc p)) * (fst (zc q) - fst (zc v)))%Z).
    { intro v. assert (Z0 : orient (zc p) (zc q) (zc v) = ((fst (zc q) - fst (zc p)) * (snd (zc v) - snd (zc p)) - (snd (zc q) - snd (zc p)) * (fst (zc v) - fst (zc p)))%Z) by (zpts; ring). rewrite Z0, X. ring. }
    rewrite !OQ in Q. set (y := (snd (zc q) - snd (zc p))%Z) in *. set (a := (fst (zc q) - fst (zc u))%Z) in *. set (b := (fst (zc q) - fst (zc w))%Z) in *.
    assert (AB : (a * b < 0)%Z). { destruct (Z_lt_le_dec (a * b) 0) as [|G]; auto. assert (0 <= (y * y) * (a * b))%Z by (apply mulnn; auto; apply Z.square_nonneg). lia. }
    assert (BT : (fst (zc u) < fst (zc q) < fst (zc w))%Z).
    { assert (a <= 0 \/ 0 < a)%Z as [Ha|Ha] by lia; [|assert (b < 0 \/ 0 <= b)%Z as [Hb|Hb] by lia].
      - assert (0 <= (- a) * (- b))%Z by (apply mulnn; lia). lia.
      - lia.
      - assert (0 <= a * b)%Z by (apply mulnn; lia). lia. }
    apply adj_split in AD as (L & R & ->). destruct (tk_split points D _ s L u (w :: R) T eq_refl) as (SL1 & _).
    destruct (tk_split points D _ s (L ++ [u]) w R T) as (_ & SR2 & _); [rewrite <- app_assoc; reflexivity|].
    apply in_app_or in Iq as [Iq|[<-|[<-|Iq]]]; try lia.
    + specialize (SL1 _ Iq). unfold xlt in SL1. lia.
    + specialize (SR2 _ Iq). unfold xlt in SR2. lia.
  - intro Q. apply pcross_swap' in Q. revert Q. apply no_cross; auto; try (intro Y; apply CL; auto); intro Y; eapply adj_end; eauto.
Qed.
Lemma adjacent_adj (ns : list Entry) e e' : adjacent ns e e' -> adj (map en_pid ns) (en_pid e) (en_pid e').
Proof using.
  intros (k & H1 & H2). revert ns H1 H2. induction k as [|k IH]; intros [|a ns] H1 H2; try discriminate; cbn in *.
  - injection H1 as ->. destruct ns as [|b ns]; [discriminate|]. injection H2 as ->. simpl. auto.
  - apply adj_cons. auto.
Qed.
(** every edge that crosses has a triangle on both sides *)
Definition CR (Z : nat -> zpt) (S : nat -> Prop) (x y : nat) (ts : TriangleStore) : Prop :=
  forall P, fst P < length ts -> S (fst P) -> pcross (Z (fst (pedge ts P))) (Z (snd (pedge ts P))) (Z x) (Z y) -> ptn ts P <> None.
Lemma CR_start D vs s p q (S : nat -> Prop) : TK D vs s -> sx vs -> In p D -> In q D -> In q vs -> clear p q vs -> p < ps_head points -> q < ps_head points -> CR zc S p q (s_tris s).
Proof using PP.
  intros T SX Dp Dq Iq CL Lp Lq P LP _ X B. destruct (bd_only _ _ _ _ _ _ (k_bnd _ _ _ _ _ _ (tk_K _ _ _ _ T)) P (conj LP B)) as [Q|(e & e' & AD & Q)]; rewrite Q in X; cbn [fst snd] in X.
  - destruct X as [X _]. destruct (pr_frame points PP p Lp) as (F1 & F2 & F3). destruct (pr_frame points PP q Lq) as (G1 & G2 & G3).
    pose proof (mulpos _ _ (above_base _ _ _ F1 F2 F3) (above_base _ _ _ G1 G2 G3)). lia.
  - apply adjacent_adj in AD. pose proof (tk_vs _ _ _ _ T) as V. unfold vs_of in V. rewrite V in AD. apply pcross_swap in X. revert X. eapply adj_no_cross; eauto.
Qed.

Lemma fill_edge_event_tot D p q pp pq edge id L R s fuel : TK D (L ++ q :: R) s -> sx (L ++ q :: R) -> nid_ok id -> ni_pid id = q ->
  nth_error (ps_points points) q = Some pq -> nth_error (ps_points points) p = Some pp -> ce_q edge = pq -> ce_p edge = pp -> p_id edge = p -> ce_right edge = f_lt (px pq) (px pp) ->
  p < ps_head points -> In p D -> p <> q -> Fuel (2 * N + 6) fuel -> q < ps_head points -> Ed p q ->
  gd (fill_edge_event dbg points fuel edge id) s (fun _ s' => exists vs', TK D vs' s' /\ sx vs' /\ In q vs' /\ clear p q vs').
Proof using PP.
  intros T SX Hid Eid Hq Hp E1 E2 E3 E4 Lp Dp NE F Lq IE. pose proof (tk_short _ _ _ _ T) as SH. rewrite app_length in SH. cbn [length] in SH.
  unfold fill_edge_event. rewrite E4. rewrite (lt_pt points PP q p pq pp Hq Hp).
  assert (Z0 : forall v, ht (zc q) (zc v) (zc q) = 0%Z) by (intro; unfold ht; zpts; ring).
  assert (Z1 : forall v, ht (zc v) (zc q) (zc q) = 0%Z) by (intro; unfold ht; zpts; ring).
  destruct (tk_split points D _ s L q R T eq_refl) as (SL1 & SR1 & _).
  destruct (Z.ltb_spec (fst (zc q)) (fst (zc p))) as [X|X].
  - eapply gd_mono; [apply (right_above_tot dbg points PP q p pq pp edge Hq Hp E1 E2 E3 Lp X Lq IE D Dp (length R) fuel id L R s)|]; rewrite ?Eid; auto.
    + eapply Fuel_down; eauto. lia.
    + apply in_or_app. simpl. auto.
    + rewrite Z0. lia.
    + intros v Hv Y. exfalso. apply (xlt_asym _ _ Y). auto.
    + intros _ s' (vs' & T' & SX' & I' & H'). exists vs'. split; auto. split; auto. split; auto. intros v Hv. split; intro Y; [|lia]. apply H'; auto; [left|]; lia.
  - destruct (Z.eq_dec (fst (zc p)) (fst (zc q))) as [XE|XN].
    + (* vertical *)
      assert (exists f, fuel = S f) as [f ->] by (destruct F as (m & _ & Q); destruct fuel; [lia|eauto]). cbn [fill_left_above_edge_event].
      apply gd_front. pose proof (tk_C _ _ _ _ T) as C.
      assert (TV : map en_pid (nodes (s_front s)) = L ++ q :: R) by apply (tk_vs _ _ _ _ T).
      destruct (prev_id points PP (s_front s) C id L (q :: R) Hid TV) as [NP0 NP].
      { rewrite Eid. exact SL1. } { rewrite Eid. intros x [<-|Hx]; [apply xlt_irrefl|intro Y; apply (xlt_asym _ _ Y); auto]. }
      assert (FIN : exists vs', TK D vs' s /\ sx vs' /\ In q vs' /\ clear p q vs').
      { exists (L ++ q :: R). split; auto. split; auto. split; [apply in_or_app; simpl; auto|]. intros v Hv. split; intro; lia. }
      destruct (app_cases L) as [->|(L2 & u & ->)]; [eapply gd_lift; [apply NP0; auto|]; apply gd_skip; auto|].
      destruct (NP _ _ eq_refl) as (prev & Y1 & RX). eapply gd_lift; [exact Y1|]. destruct (ref_pid points _ C _ _ _ _ RX) as (_ & Hu & Q1 & Q2). cbv beta iota.
      rewrite E2. rewrite (le_pt points PP u p (nr_point prev) pp Hu Hp).
      assert (XU : xlt (zc u) (zc q)) by (apply SL1; apply in_or_app; simpl; auto).
      rewrite (proj2 (Z.leb_le _ _)) by (unfold xlt in XU; lia). apply gd_skip. auto.
    + assert (X' : (fst (zc p) < fst (zc q))%Z) by lia.
      eapply gd_mono; [apply (left_above_tot dbg points PP q p pq pp edge Hq Hp E1 E2 E3 Lp X' D Dp (length L) fuel id L R s)|]; rewrite ?Eid; auto.
      * eapply Fuel_down; eauto. lia.
      * simpl. auto.
      * rewrite Z1. lia.
      * intros v Hv Y. exfalso. apply (xlt_asym _ _ Y). auto.
      * intros _ s' (vs' & T' & SX' & I' & H'). exists vs'. split; auto. split; auto. split; auto. intros v Hv. split; intro Y; [lia|]. apply H'; auto; [left|]; lia.
Qed.
End S.
