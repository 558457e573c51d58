(** * PropsFrame: where the artificial points are, for every finite f64 input (C34)

    The artificial points are computed with rounding and can overflow.  They are never inside the bounding
    box of the input; on a side where the box is not extremely narrow they are strictly outside. *)
From Coq Require Import ZArith Bool Lia List Reals Lra.
From Coq.Floats Require Import SpecFloat.
From Flocq Require Import Core.
From Flocq Require BinarySingleNaN.
From Verif Require Import Base Num Shape Points F64 Exact F64Exact Spec F64Real IntF64.
Import ListNotations.
Local Open Scope R_scope.
Notation pinf := (S754_infinity false).
Notation ninf := (S754_infinity true).
Lemma rnd_0 : rnd 0 = 0. Proof. apply round_0. typeclasses eauto. Qed.

Lemma fmax_bound x : ffin x -> Rabs (v64 x) <= bpow radix2 1024 - bpow radix2 971.
Proof. intro F. destruct (fin_B x F) as (b & <- & _ & V). rewrite <- V. apply (BinarySingleNaN.abs_B2R_le_emax_minus_prec 53 1024 Hp b). Qed.
Lemma v_MAX_eq : v64 (@f_MAX F64) = bpow radix2 1024 - bpow radix2 971 /\ v64 (@f_MIN F64) = - (bpow radix2 1024 - bpow radix2 971).
Proof.
  replace (bpow radix2 1024) with (9007199254740992 * bpow radix2 971) by (replace 1024%Z with (53 + 971)%Z by reflexivity; rewrite bpow_plus; reflexivity).
  split; unfold v64; cbn [f_MAX f_MIN F64 BinarySingleNaN.SF2R]; unfold F2R; cbn [Fnum Fexp cond_Zopp].
  - change (IZR 9007199254740991) with 9007199254740991. ring.
  - change (IZR (- (9007199254740991))) with (- (9007199254740991)). ring.
Qed.

Lemma sign_neg (b : BinarySingleNaN.binary_float 53 1024) : BinarySingleNaN.Bsign b = true -> BinarySingleNaN.B2R b <= 0.
Proof. destruct b as [s|s| |s m e HB]; cbn [BinarySingleNaN.Bsign BinarySingleNaN.B2R]; intro H; try apply Rle_refl. subst s. apply F2R_le_0. cbn. lia. Qed.
Lemma sign_pos (b : BinarySingleNaN.binary_float 53 1024) : BinarySingleNaN.Bsign b = false -> 0 <= BinarySingleNaN.B2R b.
Proof. destruct b as [s|s| |s m e HB]; cbn [BinarySingleNaN.Bsign BinarySingleNaN.B2R]; intro H; try apply Rle_refl. subst s. apply F2R_ge_0. cbn. lia. Qed.

(** a difference that is not negative overflows upwards only *)
Lemma sub_up x y : ffin x -> ffin y -> v64 y <= v64 x ->
  SFsub 53 1024 x y = pinf \/ (ffin (SFsub 53 1024 x y) /\ v64 (SFsub 53 1024 x y) = rnd (v64 x - v64 y)).
Proof.
  intros Fx Fy H. destruct (fin_B x Fx) as (bx & <- & F1 & V1). destruct (fin_B y Fy) as (by_ & <- & F2 & V2). rewrite sub_equiv. rewrite <- V1, <- V2 in *.
  pose proof (BinarySingleNaN.Bminus_correct 53 1024 Hp Hpm BinarySingleNaN.mode_NE bx by_ F1 F2) as C. change (BinarySingleNaN.round_mode BinarySingleNaN.mode_NE) with ZnearestE in C.
  destruct (Rlt_bool (Rabs (rnd (BinarySingleNaN.B2R bx - BinarySingleNaN.B2R by_))) (bpow radix2 1024)) eqn:Q.
  - destruct C as (C1 & C2 & _). destruct (B_fin _ C2) as [C3 C4]. right. split; auto. rewrite C4. exact C1.
  - destruct C as (C1 & C2). left. rewrite C1. assert (S : BinarySingleNaN.Bsign bx = false).
    { destruct (BinarySingleNaN.Bsign bx) eqn:S; auto. exfalso. symmetry in C2. apply negb_true_iff in C2.
      pose proof (sign_neg bx S) as X1.
      pose proof (sign_pos by_ C2) as X2.
      assert (Z0 : BinarySingleNaN.B2R bx - BinarySingleNaN.B2R by_ = 0) by lra. rewrite Z0, rnd_0, Rabs_R0 in Q. rewrite Rlt_bool_true in Q by apply bpow_gt_0. discriminate. }
    rewrite S. reflexivity.
Qed.
(** x - d and x + d for d >= 0 *)
Lemma sub_down x d : ffin x -> ffin d -> 0 <= v64 d ->
  SFsub 53 1024 x d = ninf \/ (ffin (SFsub 53 1024 x d) /\ v64 (SFsub 53 1024 x d) = rnd (v64 x - v64 d)).
Proof.
  intros Fx Fy H. pose proof (fmax_bound x Fx) as BX. destruct (fin_B x Fx) as (bx & <- & F1 & V1). destruct (fin_B d Fy) as (by_ & <- & F2 & V2). rewrite sub_equiv. rewrite <- V1, <- V2 in *.
  pose proof (BinarySingleNaN.Bminus_correct 53 1024 Hp Hpm BinarySingleNaN.mode_NE bx by_ F1 F2) as C. change (BinarySingleNaN.round_mode BinarySingleNaN.mode_NE) with ZnearestE in C.
  destruct (Rlt_bool (Rabs (rnd (BinarySingleNaN.B2R bx - BinarySingleNaN.B2R by_))) (bpow radix2 1024)) eqn:Q.
  - destruct C as (C1 & C2 & _). destruct (B_fin _ C2) as [C3 C4]. right. split; auto. rewrite C4. exact C1.
  - destruct C as (C1 & C2). left. rewrite C1. destruct (BinarySingleNaN.Bsign bx) eqn:S; [reflexivity|]. exfalso. symmetry in C2. apply negb_false_iff in C2.
    pose proof (sign_neg by_ C2) as X2.
    assert (Z0 : BinarySingleNaN.B2R bx - BinarySingleNaN.B2R by_ = BinarySingleNaN.B2R bx) by lra. rewrite Z0 in Q.
    rewrite round_generic in Q; [|apply valid_rnd_N|apply BinarySingleNaN.generic_format_B2R]. rewrite Rlt_bool_true in Q by apply BinarySingleNaN.abs_B2R_lt_emax. discriminate.
Qed.
Lemma add_up x d : ffin x -> ffin d -> 0 <= v64 d ->
  SFadd 53 1024 x d = pinf \/ (ffin (SFadd 53 1024 x d) /\ v64 (SFadd 53 1024 x d) = rnd (v64 x + v64 d)).
Proof.
  intros Fx Fy H. destruct (fin_B x Fx) as (bx & <- & F1 & V1). destruct (fin_B d Fy) as (by_ & <- & F2 & V2). rewrite add_equiv. rewrite <- V1, <- V2 in *.
  pose proof (BinarySingleNaN.Bplus_correct 53 1024 Hp Hpm BinarySingleNaN.mode_NE bx by_ F1 F2) as C. change (BinarySingleNaN.round_mode BinarySingleNaN.mode_NE) with ZnearestE in C.
  destruct (Rlt_bool (Rabs (rnd (BinarySingleNaN.B2R bx + BinarySingleNaN.B2R by_))) (bpow radix2 1024)) eqn:Q.
  - destruct C as (C1 & C2 & _). destruct (B_fin _ C2) as [C3 C4]. right. split; auto. rewrite C4. exact C1.
  - destruct C as (C1 & C2). left. rewrite C1. destruct (BinarySingleNaN.Bsign bx) eqn:S; [|reflexivity]. exfalso. symmetry in C2.
    pose proof (sign_neg by_ C2) as X2.
    assert (Z0 : BinarySingleNaN.B2R bx + BinarySingleNaN.B2R by_ = BinarySingleNaN.B2R bx) by lra. rewrite Z0 in Q.
    rewrite round_generic in Q; [|apply valid_rnd_N|apply BinarySingleNaN.generic_format_B2R]. rewrite Rlt_bool_true in Q by apply BinarySingleNaN.abs_B2R_lt_emax. discriminate.
Qed.
(** 0.3 times something *)
Lemma c03_bounds : 29 / 100 <= v64 (@f_c03 F64) <= 1.
Proof. rewrite (proj2 v_c03). lra. Qed.
Lemma mul_c03 d : d = pinf \/ (ffin d /\ 0 <= v64 d) ->
  let m := SFmul 53 1024 d (@f_c03 F64) in m = pinf /\ d = pinf \/ (ffin d /\ ffin m /\ v64 m = rnd (v64 d * v64 (@f_c03 F64)) /\ 0 <= v64 m).
Proof.
  intros [->|[F P]] m; [left; split; reflexivity|right]. split; [exact F|]. destruct c03_bounds as [C1 C2]. pose proof (proj1 v_c03) as FC.
  assert (BD : Rlt_bool (Rabs (rnd (v64 d * v64 (@f_c03 F64)))) (bpow radix2 1024) = true).
  { apply Rlt_bool_true. apply Rle_lt_trans with (v64 d).
    - apply abs_round_le_generic; [typeclasses eauto|apply valid_rnd_N|apply v64_format; auto|]. rewrite Rabs_pos_eq by nra. nra.
    - pose proof (fmax_bound d F) as X. pose proof (bpow_gt_0 radix2 971). pose proof (Rle_abs (v64 d)). lra. }
  assert (V : ffin m /\ v64 m = rnd (v64 d * v64 (@f_c03 F64))).
  { unfold m. destruct (fin_B d F) as (bx & <- & F1 & V1). destruct (fin_B _ FC) as (by_ & Ey & F2 & V2). rewrite <- Ey. rewrite mul_equiv. rewrite <- Ey in BD, V2.
    pose proof (BinarySingleNaN.Bmult_correct 53 1024 Hp Hpm BinarySingleNaN.mode_NE bx by_) as C. rewrite V1, V2 in C. change (BinarySingleNaN.round_mode BinarySingleNaN.mode_NE) with ZnearestE in C.
    rewrite BD in C. destruct C as (D1 & D2 & _). rewrite F1, F2 in D2. destruct (B_fin _ D2) as [C3 C4]. split; auto. rewrite C4. exact D1. }
  destruct V as [V1 V2]. split; auto. split; auto. rewrite V2. rewrite <- rnd_0. apply rnd_mono. nra.
Qed.
Lemma fle_ninf x : ffin x -> @f_le F64 ninf x = true /\ @f_lt F64 ninf x = true. Proof. destruct x; cbn; auto; intros []. Qed.
Lemma fle_pinf x : ffin x -> @f_le F64 x pinf = true /\ @f_lt F64 x pinf = true. Proof. destruct x as [[]|[]| |[]]; cbn; auto; intros []. Qed.

(** ** one side of the box *)
Lemma side_le lo hi x : ffin lo -> ffin hi -> ffin x -> v64 lo <= v64 x <= v64 hi ->
  let d := @f_mul F64 (@f_sub F64 hi lo) (@f_c03 F64) in @f_le F64 (@f_sub F64 lo d) x = true /\ @f_le F64 x (@f_add F64 hi d) = true.
Proof.
  intros FL FH FX [L1 L2] d.
  assert (D : d = pinf \/ (ffin d /\ 0 <= v64 d)).
  { destruct (mul_c03 (SFsub 53 1024 hi lo)) as [[E _]|(_ & E1 & _ & E2)]; [|left; exact E|right; split; [exact E1|exact E2]].
    destruct (sub_up hi lo FH FL) as [E|[E1 E2]]; [lra|left; exact E|right]. split; auto. rewrite E2, <- rnd_0. apply rnd_mono. lra. }
  destruct D as [->|[FD PD]].
  - split.
    + replace (@f_sub F64 lo pinf) with ninf by (destruct lo as [[]|[]| |[]]; cbn; auto; destruct FL). apply fle_ninf; auto.
    + replace (@f_add F64 hi pinf) with pinf by (destruct hi as [[]|[]| |[]]; cbn; auto; destruct FH). apply fle_pinf; auto.
  - split.
    + change (@f_sub F64 lo d) with (SFsub 53 1024 lo d). destruct (sub_down lo d FL FD PD) as [-> |[E1 E2]]; [apply fle_ninf; auto|]. apply fle_v; auto. rewrite E2. apply Rle_trans with (v64 lo); auto. rewrite <- (rnd_id lo FL) at 2. apply rnd_mono. lra.
    + change (@f_add F64 hi d) with (SFadd 53 1024 hi d). destruct (add_up hi d FH FD PD) as [-> |[E1 E2]]; [apply fle_pinf; auto|]. apply fle_v; auto. rewrite E2. apply Rle_trans with (v64 hi); auto. rewrite <- (rnd_id hi FH) at 1. apply rnd_mono. lra.
Qed.

(** one ulp *)
#[local] Instance fexp_mono : Monotone_exp (SpecFloat.fexp 53 1024). Proof. apply BinarySingleNaN.fexp_monotone. Qed.
Lemma ulp_zero : ulp radix2 (SpecFloat.fexp 53 1024) 0 = bpow radix2 (-1074).
Proof.
  unfold ulp. rewrite Req_bool_true by reflexivity. destruct (negligible_exp_spec (SpecFloat.fexp 53 1024)) as [H|n H].
  - exfalso. specialize (H (-1074)%Z). rewrite fexp_val in H. lia.
  - f_equal. rewrite fexp_val in *. lia.
Qed.
Lemma ulp_bpow_ex y : exists e, ulp radix2 (SpecFloat.fexp 53 1024) y = bpow radix2 e /\ (-1074 <= e)%Z.
Proof.
  destruct (Req_dec y 0) as [->|N]; [exists (-1074)%Z; split; [apply ulp_zero|lia]|]. exists (cexp radix2 (SpecFloat.fexp 53 1024) y). split; [apply ulp_neq_0; auto|unfold cexp; rewrite fexp_val; lia].
Qed.
Lemma up_lt x d : ffin x -> ulp radix2 (SpecFloat.fexp 53 1024) (v64 x) <= d -> v64 x < rnd (v64 x + d).
Proof.
  intros F H. apply Rlt_le_trans with (succ radix2 (SpecFloat.fexp 53 1024) (v64 x)).
  - destruct (Req_dec (v64 x) 0) as [E|N]; [|apply succ_gt_id; auto]. rewrite E, succ_0, ulp_zero. apply bpow_gt_0.
  - apply round_ge_generic; [typeclasses eauto|apply valid_rnd_N|apply generic_format_succ; [typeclasses eauto|apply v64_format; auto]|].
    pose proof (succ_le_plus_ulp radix2 (SpecFloat.fexp 53 1024) (v64 x)). lra.
Qed.
Lemma down_lt x d : ffin x -> ulp radix2 (SpecFloat.fexp 53 1024) (v64 x) <= d -> rnd (v64 x - d) < v64 x.
Proof.
  intros F H. apply Rle_lt_trans with (pred radix2 (SpecFloat.fexp 53 1024) (v64 x)).
  - apply round_le_generic; [typeclasses eauto|apply valid_rnd_N|apply generic_format_pred; [typeclasses eauto|apply v64_format; auto]|].
    pose proof (succ_le_plus_ulp radix2 (SpecFloat.fexp 53 1024) (- v64 x)). rewrite ulp_opp in H0. unfold pred. lra.
  - destruct (Req_dec (v64 x) 0) as [E|N]; [|apply pred_lt_id; auto]. rewrite E, pred_0, ulp_zero. pose proof (bpow_gt_0 radix2 (-1074)). lra.
Qed.
Lemma ulp_small x w : bpow radix2 (-50) * Rabs x <= w -> bpow radix2 (-1072) <= w -> 4 * ulp radix2 (SpecFloat.fexp 53 1024) x <= w.
Proof.
  intros H1 H2. destruct (Req_dec x 0) as [->|NZ].
  - rewrite ulp_zero. replace (-1072)%Z with (2 + -1074)%Z in H2 by reflexivity. rewrite bpow_plus in H2. exact H2.
  - rewrite ulp_neq_0 by auto. unfold cexp. rewrite fexp_val. destruct (Z.max_spec (mag radix2 x - 53) (-1074)) as [[_ ->]|[_ ->]].
    + replace (-1072)%Z with (2 + -1074)%Z in H2 by reflexivity. rewrite bpow_plus in H2. exact H2.
    + pose proof (bpow_mag_le radix2 x NZ) as M. eapply Rle_trans; [|exact H1].
      replace (4 * bpow radix2 (mag radix2 x - 53)) with (bpow radix2 (-50) * bpow radix2 (mag radix2 x - 1)); [apply Rmult_le_compat_l; [apply bpow_ge_0|exact M]|].
      change 4 with (bpow radix2 2). rewrite <- !bpow_plus. f_equal. lia.
Qed.
Lemma side_lt lo hi x : ffin lo -> ffin hi -> ffin x -> v64 lo <= v64 x <= v64 hi ->
  bpow radix2 (-50) * Rabs (v64 lo) <= v64 hi - v64 lo -> bpow radix2 (-50) * Rabs (v64 hi) <= v64 hi - v64 lo -> bpow radix2 (-1072) <= v64 hi - v64 lo ->
  let d := @f_mul F64 (@f_sub F64 hi lo) (@f_c03 F64) in @f_lt F64 (@f_sub F64 lo d) x = true /\ @f_lt F64 x (@f_add F64 hi d) = true.
Proof.
  intros FL FH FX [L1 L2] W1 W2 W3 d. set (fx := SpecFloat.fexp 53 1024) in *.
  pose proof (ulp_small _ _ W1 W3) as U1. pose proof (ulp_small _ _ W2 W3) as U2. fold fx in U1, U2.
  assert (D : d = pinf \/ (ffin d /\ ulp radix2 fx (v64 lo) <= v64 d /\ ulp radix2 fx (v64 hi) <= v64 d)).
  { destruct c03_bounds as [C1 C2].
    destruct (sub_up hi lo FH FL) as [E|[E1 E2]]; [lra|left; unfold d; change (@f_sub F64 hi lo) with (SFsub 53 1024 hi lo); rewrite E; reflexivity|right].
    assert (S0 : 0 <= v64 (SFsub 53 1024 hi lo)) by (rewrite E2, <- rnd_0; apply rnd_mono; lra).
    destruct (mul_c03 (SFsub 53 1024 hi lo) (or_intror (conj E1 S0))) as [[_ Q]|(_ & M1 & M2 & _)]; [rewrite Q in E1; destruct E1|].
    split; [exact M1|].
    assert (G : forall y, 4 * ulp radix2 fx y <= v64 hi - v64 lo -> ulp radix2 fx y <= v64 d).
    { intros y Hy. change d with (SFmul 53 1024 (SFsub 53 1024 hi lo) (@f_c03 F64)). rewrite M2.
      destruct (ulp_bpow_ex y) as [e [He Le]]. fold fx in He. rewrite He in *.
      assert (FE : forall k, (-1074 <= k)%Z -> generic_format radix2 fx (bpow radix2 k)) by (intros k Hk; apply generic_format_bpow; unfold fx; rewrite fexp_val; lia).
      rewrite <- (round_generic radix2 fx ZnearestE (bpow radix2 e)) by (apply FE; lia). apply rnd_mono.
      assert (bpow radix2 (2 + e) <= v64 (SFsub 53 1024 hi lo)).
      { rewrite E2. rewrite <- (round_generic radix2 fx ZnearestE (bpow radix2 (2 + e))) by (apply FE; lia). apply rnd_mono. rewrite bpow_plus. exact Hy. }
      rewrite bpow_plus in H. change (bpow radix2 2) with 4 in H. pose proof (bpow_gt_0 radix2 e). nra. }
    split; apply G; assumption. }
  destruct D as [->|(FD & D1 & D2)].
  - split.
    + replace (@f_sub F64 lo pinf) with ninf by (destruct lo as [[]|[]| |[]]; cbn; auto; destruct FL). apply fle_ninf; auto.
    + replace (@f_add F64 hi pinf) with pinf by (destruct hi as [[]|[]| |[]]; cbn; auto; destruct FH). apply fle_pinf; auto.
  - assert (PD : 0 <= v64 d) by (eapply Rle_trans; [apply ulp_ge_0|exact D1]). split.
    + change (@f_sub F64 lo d) with (SFsub 53 1024 lo d). destruct (sub_down lo d FL FD PD) as [-> |[E1 E2]]; [apply fle_ninf; auto|]. apply flt_v; auto. rewrite E2. apply Rlt_le_trans with (v64 lo); auto.
      apply down_lt; auto.
    + change (@f_add F64 hi d) with (SFadd 53 1024 hi d). destruct (add_up hi d FH FD PD) as [-> |[E1 E2]]; [apply fle_pinf; auto|]. apply flt_v; auto. rewrite E2. apply Rle_lt_trans with (v64 hi); auto.
      apply up_lt; auto.
Qed.

(** ** the box *)
Lemma box (g : @Point F64 -> spec_float) (ps : list (@Point F64)) p : (forall q, In q ps -> ffin (g q)) -> In p ps ->
  let hi := fold_left (fun m p => @f_max F64 m (g p)) ps (@f_MIN F64) in
  let lo := fold_left (fun m p => @f_min F64 m (g p)) ps (@f_MAX F64) in
  ffin lo /\ ffin hi /\ v64 lo <= v64 (g p) <= v64 hi /\ (exists q, In q ps /\ v64 lo = v64 (g q)) /\ (exists q, In q ps /\ v64 hi = v64 (g q)).
Proof.
  intros F Ip hi lo. assert (F' : Forall (fun p => ffin (g p)) ps) by (apply Forall_forall; auto).
  destruct v_MAX0 as (M1 & _ & M3 & _). destruct v_MAX_eq as [E1 E2].
  destruct (fold_max g ps _ M3 F') as (H1 & H2 & H3 & H4). fold hi in H1, H2, H3, H4. destruct (fold_min g ps _ M1 F') as (L1 & L2 & L3 & L4). fold lo in L1, L2, L3, L4.
  split; auto. split; auto. split; [split; auto|]. split.
  - destruct L4 as [Q|(q & Iq & ->)]; [|eauto]. exists p. split; auto. apply Rle_antisym; auto. rewrite Q, E1. pose proof (fmax_bound _ (F p Ip)) as X. apply Rabs_le_inv in X. lra.
  - destruct H4 as [Q|(q & Iq & ->)]; [|eauto]. exists p. split; auto. apply Rle_antisym; auto. rewrite Q, E2. pose proof (fmax_bound _ (F p Ip)) as X. apply Rabs_le_inv in X. lra.
Qed.

(** ** C34, for every finite input: the artificial points are never inside the bounding box *)
Theorem C34_frame_outside_partial : forall ps : list (@Point F64), (forall p, In p ps -> finp p) -> forall p, In p ps ->
  f_le (px (head_point ps)) (px p) = true /\ f_le (px p) (px (tail_point ps)) = true /\
  f_le (py (head_point ps)) (py p) = true /\ f_le (py (tail_point ps)) (py p) = true.
Proof.
  intros ps F p Ip.
  destruct (box px ps p (fun q Iq => proj1 (F q Iq)) Ip) as (X1 & X2 & X3 & _). destruct (box py ps p (fun q Iq => proj2 (F q Iq)) Ip) as (Y1 & Y2 & Y3 & _).
  destruct (side_le _ _ _ X1 X2 (proj1 (F p Ip)) X3) as [A1 A2]. destruct (side_le _ _ _ Y1 Y2 (proj2 (F p Ip)) Y3) as [B1 _].
  split; [exact A1|]. split; [exact A2|]. split; exact B1.
Qed.

(** coordinates in units of 2^-1074 ([zp]); the spread of one coordinate is at least 2^-50 times its largest absolute value, and at least 4 units *)
Definition wide (c : zpt -> Z) (ps : list (@Point F64)) : Prop := exists p q, In p ps /\ In q ps /\
  (4 <= c (zp q) - c (zp p))%Z /\ forall r, In r ps -> (Z.abs (c (zp r)) <= 2 ^ 50 * (c (zp q) - c (zp p)))%Z.
Lemma wide_side (g : @Point F64 -> spec_float) (c : zpt -> Z) ps x : (forall p, In p ps -> ffin (g p) /\ c (zp p) = sf_zv 53 1024 (g p)) -> wide c ps -> In x ps ->
  let hi := fold_left (fun m p => @f_max F64 m (g p)) ps (@f_MIN F64) in
  let lo := fold_left (fun m p => @f_min F64 m (g p)) ps (@f_MAX F64) in
  let d := @f_mul F64 (@f_sub F64 hi lo) (@f_c03 F64) in @f_lt F64 (@f_sub F64 lo d) (g x) = true /\ @f_lt F64 (g x) (@f_add F64 hi d) = true.
Proof.
  intros F (p & q & Ip & Iq & W4 & W) Ix hi lo.
  destruct (box g ps x (fun r Ir => proj1 (F r Ir)) Ix) as (FL & FH & BX & (r1 & Ir1 & V1) & (r2 & Ir2 & V2)). fold hi lo in FL, FH, BX, V1, V2.
  destruct (box g ps p (fun r Ir => proj1 (F r Ir)) Ip) as (_ & _ & [BP _] & _). destruct (box g ps q (fun r Ir => proj1 (F r Ir)) Iq) as (_ & _ & [_ BQ] & _). fold lo in BP. fold hi in BQ.
  pose proof (zv_val _ (proj1 (F p Ip))) as Zp. pose proof (zv_val _ (proj1 (F q Iq))) as Zq. rewrite <- (proj2 (F p Ip)) in Zp. rewrite <- (proj2 (F q Iq)) in Zq.
  pose proof (bpow_gt_0 radix2 1074) as P.
  assert (S : IZR (c (zp q) - c (zp p)) <= (v64 hi - v64 lo) * bpow radix2 1074) by (rewrite minus_IZR, Zp, Zq, <- Rmult_minus_distr_r; apply Rmult_le_compat_r; lra).
  assert (G : forall r, In r ps -> bpow radix2 (-50) * Rabs (v64 (g r)) <= v64 hi - v64 lo).
  { intros r Ir. specialize (W r Ir). apply IZR_le in W. rewrite abs_IZR, mult_IZR, (proj2 (F r Ir)), (zv_val _ (proj1 (F r Ir))), Rabs_mult, (Rabs_pos_eq (bpow radix2 1074)) in W by lra.
    change (IZR (2 ^ 50)) with (bpow radix2 50) in W.
    assert (W' : Rabs (v64 (g r)) <= bpow radix2 50 * (v64 hi - v64 lo)).
    { apply Rmult_le_reg_r with (bpow radix2 1074); auto. eapply Rle_trans; [exact W|]. rewrite Rmult_assoc. apply Rmult_le_compat_l; [apply bpow_ge_0|exact S]. }
    apply Rle_trans with (bpow radix2 (-50) * (bpow radix2 50 * (v64 hi - v64 lo))); [apply Rmult_le_compat_l; [apply bpow_ge_0|exact W']|].
    rewrite <- Rmult_assoc, <- bpow_plus. change (bpow radix2 (-50 + 50)) with 1. lra. }
  apply side_lt; auto; [apply F; auto|pose proof (G r1 Ir1) as X; rewrite <- V1 in X; exact X|pose proof (G r2 Ir2) as X; rewrite <- V2 in X; exact X|].
  apply IZR_le in W4. apply Rmult_le_reg_r with (bpow radix2 1074); auto. eapply Rle_trans; [|exact S]. eapply Rle_trans; [|exact W4]. rewrite <- bpow_plus. change (bpow radix2 (-1072 + 1074)) with 4. lra.
Qed.
(** strictly outside on every side on which the box is not extremely narrow *)
Theorem C34_frame_strict_unless_narrow_partial : forall ps : list (@Point F64), (forall p, In p ps -> finp p) -> forall p, In p ps ->
  (wide fst ps -> f_lt (px (head_point ps)) (px p) = true /\ f_lt (px p) (px (tail_point ps)) = true) /\
  (wide snd ps -> f_lt (py (head_point ps)) (py p) = true /\ f_lt (py (tail_point ps)) (py p) = true).
Proof.
  intros ps F p Ip. split; intro W.
  - exact (wide_side px fst ps p (fun q Iq => conj (proj1 (F q Iq)) eq_refl) W Ip).
  - destruct (wide_side py snd ps p (fun q Iq => conj (proj2 (F q Iq)) eq_refl) W Ip) as [A _]. split; exact A.
Qed.

(** a case: a triangle far from the origin, 2^-40 wide *)
Definition ff (m e : Z) : spec_float := SpecFloat.binary_normalize 53 1024 m e false.
Definition far_triangle : list (@Point F64) := [@mkPoint F64 (f64 1000) (f64 1); @mkPoint F64 (ff (1000 * 2 ^ 40 + 1) (-40)) (f64 2); @mkPoint F64 (f64 1000) (f64 3)].
Example far_triangle_ok : (forall p, In p far_triangle -> finp p) /\ wide fst far_triangle /\ wide snd far_triangle.
Proof.
  split; [intros p [<-|[<-|[<-|[]]]]; split; vm_compute; reflexivity|].
  split.
  - exists (nth 0 far_triangle (@mkPoint F64 (f64 0) (f64 0))), (nth 1 far_triangle (@mkPoint F64 (f64 0) (f64 0))).
    split; [left; reflexivity|]. split; [right; left; reflexivity|]. split; [vm_compute; discriminate|]. intros r [<-|[<-|[<-|[]]]]; vm_compute; discriminate.
  - exists (nth 0 far_triangle (@mkPoint F64 (f64 0) (f64 0))), (nth 2 far_triangle (@mkPoint F64 (f64 0) (f64 0))).
    split; [left; reflexivity|]. split; [right; right; left; reflexivity|]. split; [vm_compute; discriminate|]. intros r [<-|[<-|[<-|[]]]]; vm_compute; discriminate.
Qed.
Print Assumptions C34_frame_outside_partial.
Print Assumptions C34_frame_strict_unless_narrow_partial.
