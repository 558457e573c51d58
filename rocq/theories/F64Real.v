(** * F64Real: the f64 operations of F64.v as rounded operations on the reals

    [SpecFloat]'s addition, subtraction and multiplication are those of Flocq's [BinarySingleNaN]
    (same algorithm), whose correctness theorems are then used: every operation whose exact
    result is far from the overflow threshold returns the rounded result. *)
From Coq Require Import ZArith Bool Lia List Reals Lra.
From Coq.Floats Require Import SpecFloat.
From Flocq Require Import Core.
From Flocq Require BinarySingleNaN.
From Verif Require Import Base Num F64 Exact F64Exact Spec.
Import ListNotations.

Local Open Scope R_scope.

Lemma Hp : FLX.Prec_gt_0 53. Proof. reflexivity. Qed.
Lemma Hm : (53 < 1024)%Z. Proof. reflexivity. Qed.
#[global] Existing Instance Hp.
#[global] Instance Hpm : BinarySingleNaN.Prec_lt_emax 53 1024 := Hm.
Notation rnd := (round radix2 (SpecFloat.fexp 53 1024) ZnearestE).
Definition v64 (x : spec_float) : R := BinarySingleNaN.SF2R radix2 x.

Lemma round_aux_equiv sx mx ex lx : SpecFloat.binary_round_aux 53 1024 sx mx ex lx = BinarySingleNaN.binary_round_aux 53 1024 BinarySingleNaN.mode_NE sx mx ex lx.
Proof.
  assert (R : forall s m l, round_nearest_even m l = BinarySingleNaN.choice_mode BinarySingleNaN.mode_NE s m l).
  { intros s m l. case l; [reflexivity|intro c]. case c; [|reflexivity..]. simpl. unfold Round.cond_incr. now case Z.even. }
  unfold SpecFloat.binary_round_aux, BinarySingleNaN.binary_round_aux. set (m := shr_fexp _ _ _). case m; intros mrs' e'; simpl. now rewrite (R sx).
Qed.
Lemma round_equiv s m e : SpecFloat.binary_round 53 1024 s m e = BinarySingleNaN.binary_round 53 1024 BinarySingleNaN.mode_NE s m e.
Proof. unfold SpecFloat.binary_round, BinarySingleNaN.binary_round, BinarySingleNaN.shl_align_fexp. set (mez := shl_align _ _ _). case mez as [mz ez]. apply round_aux_equiv. Qed.
Lemma normalize_equiv m e szero : SpecFloat.binary_normalize 53 1024 m e szero = BinarySingleNaN.B2SF (BinarySingleNaN.binary_normalize 53 1024 Hp Hpm BinarySingleNaN.mode_NE m e szero).
Proof. case m as [|p|p]; [reflexivity|simpl; rewrite BinarySingleNaN.B2SF_SF2B; apply round_equiv..]. Qed.

(** a finite f64 as a Flocq float *)
Lemma fin_B (x : spec_float) : sf_fin 53 1024 x -> exists b : BinarySingleNaN.binary_float 53 1024, BinarySingleNaN.B2SF b = x /\ BinarySingleNaN.is_finite b = true /\ BinarySingleNaN.B2R b = v64 x.
Proof.
  intro F. assert (V : valid_binary 53 1024 x = true) by (destruct x; auto; destruct F).
  exists (BinarySingleNaN.SF2B x V). split; [apply BinarySingleNaN.B2SF_SF2B|]. split; [rewrite BinarySingleNaN.is_finite_SF2B; destruct x; auto; destruct F|]. apply BinarySingleNaN.B2R_SF2B.
Qed.
Lemma B_fin (b : BinarySingleNaN.binary_float 53 1024) : BinarySingleNaN.is_finite b = true -> sf_fin 53 1024 (BinarySingleNaN.B2SF b) /\ v64 (BinarySingleNaN.B2SF b) = BinarySingleNaN.B2R b.
Proof. intro F. pose proof (BinarySingleNaN.valid_binary_B2SF 53 1024 b) as V. split; [destruct b; cbn in *; auto; discriminate|apply BinarySingleNaN.SF2R_B2SF]. Qed.

Lemma add_equiv x y : SFadd 53 1024 (BinarySingleNaN.B2SF x) (BinarySingleNaN.B2SF y) = BinarySingleNaN.B2SF (BinarySingleNaN.Bplus BinarySingleNaN.mode_NE x y).
Proof.
  case x as [sx|sx| |sx mx ex Bx]; case y as [sy|sy| |sy my ey By]; [now (trivial || simpl; case Bool.eqb).. | ]. apply normalize_equiv.
Qed.
Lemma sub_equiv x y : SFsub 53 1024 (BinarySingleNaN.B2SF x) (BinarySingleNaN.B2SF y) = BinarySingleNaN.B2SF (BinarySingleNaN.Bminus BinarySingleNaN.mode_NE x y).
Proof.
  case x as [sx|sx| |sx mx ex Bx]; case y as [sy|sy| |sy my ey By]; [now (trivial || simpl; case Bool.eqb).. | ].
  cbn [BinarySingleNaN.B2SF SFsub BinarySingleNaN.Bminus]. rewrite normalize_equiv. destruct sy; reflexivity.
Qed.
Lemma mul_equiv x y : SFmul 53 1024 (BinarySingleNaN.B2SF x) (BinarySingleNaN.B2SF y) = BinarySingleNaN.B2SF (BinarySingleNaN.Bmult BinarySingleNaN.mode_NE x y).
Proof.
  case x as [sx|sx| |sx mx ex Bx]; case y as [sy|sy| |sy my ey By]; [now trivial.. | ]. simpl. rewrite BinarySingleNaN.B2SF_SF2B. apply round_aux_equiv.
Qed.

(** ** no overflow *)
Lemma small_round z : Rabs z <= bpow radix2 1000 -> Rlt_bool (Rabs (rnd z)) (bpow radix2 1024) = true.
Proof.
  intro H. apply Rlt_bool_true. apply Rle_lt_trans with (bpow radix2 1000); [|apply bpow_lt; lia].
  apply abs_round_le_generic; [apply BinarySingleNaN.fexp_correct; exact Hp|apply valid_rnd_N| |exact H].
  apply generic_format_bpow. vm_compute; discriminate.
Qed.
Lemma add_ok x y : sf_fin 53 1024 x -> sf_fin 53 1024 y -> Rabs (v64 x + v64 y) <= bpow radix2 1000 ->
  sf_fin 53 1024 (SFadd 53 1024 x y) /\ v64 (SFadd 53 1024 x y) = rnd (v64 x + v64 y).
Proof.
  intros Fx Fy H. destruct (fin_B x Fx) as (bx & <- & F1 & V1). destruct (fin_B y Fy) as (by_ & <- & F2 & V2). rewrite add_equiv.
  pose proof (BinarySingleNaN.Bplus_correct 53 1024 Hp Hpm BinarySingleNaN.mode_NE bx by_ F1 F2) as C. rewrite V1, V2 in C. change (BinarySingleNaN.round_mode BinarySingleNaN.mode_NE) with ZnearestE in C.
  rewrite (small_round _ H) in C. destruct C as (C1 & C2 & _). destruct (B_fin _ C2) as [C3 C4]. split; auto. rewrite C4. exact C1.
Qed.
Lemma sub_ok x y : sf_fin 53 1024 x -> sf_fin 53 1024 y -> Rabs (v64 x - v64 y) <= bpow radix2 1000 ->
  sf_fin 53 1024 (SFsub 53 1024 x y) /\ v64 (SFsub 53 1024 x y) = rnd (v64 x - v64 y).
Proof.
  intros Fx Fy H. destruct (fin_B x Fx) as (bx & <- & F1 & V1). destruct (fin_B y Fy) as (by_ & <- & F2 & V2). rewrite sub_equiv.
  pose proof (BinarySingleNaN.Bminus_correct 53 1024 Hp Hpm BinarySingleNaN.mode_NE bx by_ F1 F2) as C. rewrite V1, V2 in C. change (BinarySingleNaN.round_mode BinarySingleNaN.mode_NE) with ZnearestE in C.
  rewrite (small_round _ H) in C. destruct C as (C1 & C2 & _). destruct (B_fin _ C2) as [C3 C4]. split; auto. rewrite C4. exact C1.
Qed.
Lemma mul_ok x y : sf_fin 53 1024 x -> sf_fin 53 1024 y -> Rabs (v64 x * v64 y) <= bpow radix2 1000 ->
  sf_fin 53 1024 (SFmul 53 1024 x y) /\ v64 (SFmul 53 1024 x y) = rnd (v64 x * v64 y).
Proof.
  intros Fx Fy H. destruct (fin_B x Fx) as (bx & <- & F1 & V1). destruct (fin_B y Fy) as (by_ & <- & F2 & V2). rewrite mul_equiv.
  pose proof (BinarySingleNaN.Bmult_correct 53 1024 Hp Hpm BinarySingleNaN.mode_NE bx by_) as C. rewrite V1, V2 in C. change (BinarySingleNaN.round_mode BinarySingleNaN.mode_NE) with ZnearestE in C.
  rewrite (small_round _ H) in C. destruct C as (C1 & C2 & _). rewrite F1, F2 in C2. destruct (B_fin _ C2) as [C3 C4]. split; auto. rewrite C4. exact C1.
Qed.

(** ** rounding *)
#[global] Instance fexp_valid : Valid_exp (SpecFloat.fexp 53 1024). Proof. apply BinarySingleNaN.fexp_correct. exact Hp. Qed.
Lemma fexp_val e : SpecFloat.fexp 53 1024 e = Z.max (e - 53) (-1074).
Proof. reflexivity. Qed.
Lemma rnd_err z k : (-1000 <= k)%Z -> Rabs z <= bpow radix2 k -> Rabs (rnd z - z) <= bpow radix2 (k - 53).
Proof.
  intros Hk H. eapply Rle_trans; [apply error_le_half_ulp; typeclasses eauto|].
  assert (U : ulp radix2 (SpecFloat.fexp 53 1024) z <= bpow radix2 (k - 52)).
  { eapply Rle_trans; [apply ulp_le; [typeclasses eauto|apply BinarySingleNaN.fexp_monotone|]|].
    - rewrite (Rabs_pos_eq (bpow radix2 k)); [exact H|apply bpow_ge_0].
    - rewrite ulp_bpow. apply bpow_le. rewrite fexp_val. lia. }
  replace (k - 52)%Z with (1 + (k - 53))%Z in U by lia. rewrite bpow_plus in U. change (bpow radix2 1) with 2 in U. lra.
Qed.
Lemma rnd_mono x y : x <= y -> rnd x <= rnd y.
Proof. intro H. apply round_le; auto; typeclasses eauto. Qed.
Lemma v64_format x : sf_fin 53 1024 x -> generic_format radix2 (SpecFloat.fexp 53 1024) (v64 x).
Proof. intro F. destruct (fin_B x F) as (b & _ & _ & <-). apply BinarySingleNaN.generic_format_B2R. Qed.
Lemma rnd_id x : sf_fin 53 1024 x -> rnd (v64 x) = v64 x.
Proof. intro F. apply round_generic; [typeclasses eauto|apply v64_format; auto]. Qed.
Lemma int_format n : (Z.abs n <= 2 ^ 53)%Z -> generic_format radix2 (SpecFloat.fexp 53 1024) (IZR n).
Proof.
  intro H. destruct (Z.eq_dec (Z.abs n) (2 ^ 53)) as [Q|Q].
  - assert (IZR n = bpow radix2 53 \/ IZR n = - bpow radix2 53) as [-> | ->].
    { change (bpow radix2 53) with (IZR (2 ^ 53)). rewrite <- opp_IZR. destruct (Z.abs_spec n) as [[_ A]|[_ A]]; [left|right]; f_equal; lia. }
    + apply generic_format_bpow; vm_compute; discriminate.
    + apply generic_format_opp, generic_format_bpow; vm_compute; discriminate.
  - replace (IZR n) with (F2R (Float radix2 n 0)) by (unfold F2R; simpl; ring).
    apply generic_format_F2R. intro NZ. unfold cexp. rewrite fexp_val.
    assert (mag radix2 (F2R (Float radix2 n 0)) <= 53)%Z; [|lia].
    apply mag_le_bpow; [intro Z0; apply NZ; apply (eq_0_F2R radix2 _ 0); exact Z0|].
    replace (F2R (Float radix2 n 0)) with (IZR n) by (unfold F2R; simpl; ring).
    rewrite <- abs_IZR. change (bpow radix2 53) with (IZR (2 ^ 53)). apply IZR_lt. lia.
Qed.

(** ** integers *)
Lemma f64_int n : (Z.abs n <= 2 ^ 53)%Z -> sf_fin 53 1024 (f64 n) /\ v64 (f64 n) = IZR n.
Proof.
  intro H. unfold f64. rewrite normalize_equiv.
  pose proof (BinarySingleNaN.binary_normalize_correct 53 1024 Hp Hpm BinarySingleNaN.mode_NE n 0 false) as C. cbv zeta in C. change (BinarySingleNaN.round_mode BinarySingleNaN.mode_NE) with ZnearestE in C.
  replace (F2R (Float radix2 n 0)) with (IZR n) in C by (unfold F2R; simpl; ring).
  assert (G := int_format n H). rewrite round_generic in C by (auto; typeclasses eauto). rewrite Rlt_bool_true in C.
  - destruct C as (C1 & C2 & _). destruct (B_fin _ C2) as [C3 C4]. split; auto. congruence.
  - rewrite <- abs_IZR. apply Rle_lt_trans with (IZR (2 ^ 53)); [apply IZR_le; auto|]. change (IZR (2 ^ 53)) with (bpow radix2 53). apply bpow_lt. lia.
Qed.

(** ** the integer value used by the theorems *)
Lemma zv_val x : sf_fin 53 1024 x -> IZR (sf_zv 53 1024 x) = v64 x * bpow radix2 1074.
Proof.
  intro F. unfold v64. destruct x as [s|s| |s m e]; cbn [sf_zv BinarySingleNaN.SF2R]; try (destruct F; fail); [rewrite Rmult_0_l; reflexivity|].
  assert (V : (SpecFloat.emin 53 1024 <= e)%Z) by (apply (valid_finite 53 1024 s m e); exact F).
  change (SpecFloat.emin 53 1024) with (-1074)%Z in *. rewrite mult_IZR. change 2%Z with (radix_val radix2). rewrite IZR_Zpower by lia.
  unfold F2R. cbn [Fnum Fexp]. rewrite Rmult_assoc, <- bpow_plus. replace (e - -1074)%Z with (e + 1074)%Z by lia. destruct s; reflexivity.
Qed.
Print Assumptions f64_int.
Print Assumptions mul_ok.
Print Assumptions zv_val.
