(** * IntF64: on inputs with fixed-point coordinates the rounded tests of the code are right *)
From Coq Require Import ZArith Bool Lia List Reals Lra.
From Coq.Floats Require Import SpecFloat.
From Flocq Require Import Core.
From Verif Require Import Base Num Shape Utils Points Front Sweeper F64 Lists Exact F64Exact Spec Setup Good PropsMarks FillTotal Local F64Real IntSpec.
Import ListNotations.
Local Open Scope R_scope.
Notation rnd := (round radix2 (SpecFloat.fexp 53 1024) ZnearestE).
Notation ffin := (sf_fin 53 1024).

(** ** comparisons *)
Lemma bpow_pos k : 0 < bpow radix2 k. Proof. apply bpow_gt_0. Qed.
Lemma zv_lt x y : ffin x -> ffin y -> (sf_zv 53 1024 x < sf_zv 53 1024 y)%Z <-> v64 x < v64 y.
Proof.
  intros Fx Fy. pose proof (zv_val x Fx) as Hx. pose proof (zv_val y Fy) as Hy. pose proof (bpow_pos 1074) as P.
  split; intro H.
  - apply IZR_lt in H. rewrite Hx, Hy in H. apply (Rmult_lt_reg_r _ _ _ P H).
  - apply lt_IZR. rewrite Hx, Hy. apply Rmult_lt_compat_r; auto.
Qed.
Lemma zv_le x y : ffin x -> ffin y -> (sf_zv 53 1024 x <= sf_zv 53 1024 y)%Z <-> v64 x <= v64 y.
Proof. intros Fx Fy. pose proof (zv_lt y x Fy Fx). split; intro H'; [apply Rnot_lt_le; intro Q; apply H in Q; lia|apply Z.nlt_ge; intro Q; apply H in Q; lra]. Qed.
Lemma fle_v (x y : spec_float) : ffin x -> ffin y -> @f_le F64 x y = true <-> v64 x <= v64 y.
Proof.
  intros Fx Fy. unfold f_le. rewrite (@x_lt F64 F64_exact x y Fx Fy), (@x_eq F64 F64_exact x y Fx Fy), orb_true_iff, Z.ltb_lt, Z.eqb_eq.
  change (@zv F64 F64_exact) with (sf_zv 53 1024). rewrite <- (zv_le x y Fx Fy). lia.
Qed.
Lemma flt_v (x y : spec_float) : ffin x -> ffin y -> @f_lt F64 x y = true <-> v64 x < v64 y.
Proof. intros Fx Fy. rewrite (@x_lt F64 F64_exact x y Fx Fy), Z.ltb_lt. apply zv_lt; auto. Qed.
Lemma feq_v (x y : spec_float) : ffin x -> ffin y -> @f_eq F64 x y = true <-> v64 x = v64 y.
Proof.
  intros Fx Fy. rewrite (@x_eq F64 F64_exact x y Fx Fy), Z.eqb_eq. change (@zv F64 F64_exact) with (sf_zv 53 1024).
  pose proof (zv_le x y Fx Fy). pose proof (zv_le y x Fy Fx). split; intro Q; [|]; [apply Rle_antisym; [apply H|apply H0]; lia|apply Z.le_antisymm; [apply H|apply H0]; lra].
Qed.

(** ** values in units of 2^g *)
Definition wv (g : Z) (x : spec_float) : R := v64 x * bpow radix2 (- g).
Definition rn (g : Z) (z : R) : R := rnd (z * bpow radix2 g) * bpow radix2 (- g).
Lemma bpow_inv g : bpow radix2 g * bpow radix2 (- g) = 1.
Proof. rewrite <- bpow_plus. replace (g + - g)%Z with 0%Z by lia. reflexivity. Qed.
Lemma wv_v g x : v64 x = wv g x * bpow radix2 g.
Proof. unfold wv. rewrite Rmult_assoc, (Rmult_comm (bpow radix2 (- g))), bpow_inv. ring. Qed.
Lemma wv_lt g x y : v64 x < v64 y <-> wv g x < wv g y.
Proof.
  pose proof (bpow_pos (- g)) as P. unfold wv. split; intro H; [apply Rmult_lt_compat_r; auto|exact (Rmult_lt_reg_r _ _ _ P H)].
Qed.
Lemma wv_le g x y : v64 x <= v64 y <-> wv g x <= wv g y.
Proof. pose proof (wv_lt g y x). split; intro H'; apply Rnot_lt_le; intro Q; [apply H in Q|apply H in Q]; lra. Qed.
Lemma wv_eq g x y : v64 x = v64 y <-> wv g x = wv g y.
Proof. pose proof (wv_le g x y). pose proof (wv_le g y x). split; intro Q; apply Rle_antisym; (apply H || apply H0); lra. Qed.
Lemma zw_lt g x y : ffin x -> ffin y -> (sf_zv 53 1024 x < sf_zv 53 1024 y)%Z <-> wv g x < wv g y.
Proof. intros Fx Fy. rewrite (zv_lt x y Fx Fy). apply wv_lt. Qed.
Lemma zw_le g x y : ffin x -> ffin y -> (sf_zv 53 1024 x <= sf_zv 53 1024 y)%Z <-> wv g x <= wv g y.
Proof. intros Fx Fy. rewrite (zv_le x y Fx Fy). apply wv_le. Qed.
Lemma fle_w g (x y : spec_float) : ffin x -> ffin y -> @f_le F64 x y = true <-> wv g x <= wv g y.
Proof. intros Fx Fy. rewrite (fle_v x y Fx Fy). apply wv_le. Qed.
Lemma flt_w g (x y : spec_float) : ffin x -> ffin y -> @f_lt F64 x y = true <-> wv g x < wv g y.
Proof. intros Fx Fy. rewrite (flt_v x y Fx Fy). apply wv_lt. Qed.
Lemma feq_w g (x y : spec_float) : ffin x -> ffin y -> @f_eq F64 x y = true <-> wv g x = wv g y.
Proof. intros Fx Fy. rewrite (feq_v x y Fx Fy). apply wv_eq. Qed.

(** ** the operations *)
Lemma big_ok g z : (g <= 900)%Z -> Rabs z <= 10000000000000000000000000 -> Rabs (z * bpow radix2 g) <= bpow radix2 1000.
Proof.
  intros G H. rewrite Rabs_mult, (Rabs_pos_eq (bpow radix2 g)) by apply bpow_ge_0. replace 1000%Z with (100 + 900)%Z by reflexivity. rewrite bpow_plus. apply Rmult_le_compat; [apply Rabs_pos|apply bpow_ge_0| |apply bpow_le; exact G].
  eapply Rle_trans; [exact H|]. apply Rle_trans with (bpow radix2 84); [|apply bpow_le; lia].
  change (bpow radix2 84) with (IZR (2 ^ 84)). apply IZR_le. vm_compute. discriminate.
Qed.
Lemma sub_w g x y : (g <= 900)%Z -> ffin x -> ffin y -> Rabs (wv g x) <= 1000000000000 -> Rabs (wv g y) <= 1000000000000 -> ffin (SFsub 53 1024 x y) /\ wv g (SFsub 53 1024 x y) = rn g (wv g x - wv g y).
Proof.
  intros G Fx Fy Hx Hy. assert (E : v64 x - v64 y = (wv g x - wv g y) * bpow radix2 g) by (rewrite (wv_v g x), (wv_v g y); ring).
  destruct (sub_ok x y Fx Fy) as [F V]; [rewrite E; apply big_ok; auto; apply Rabs_le; apply Rabs_le_inv in Hx, Hy; lra|]. split; auto. unfold wv at 1. rewrite V, E. reflexivity.
Qed.
Lemma add_w g x y : (g <= 900)%Z -> ffin x -> ffin y -> Rabs (wv g x) <= 1000000000000 -> Rabs (wv g y) <= 1000000000000 -> ffin (SFadd 53 1024 x y) /\ wv g (SFadd 53 1024 x y) = rn g (wv g x + wv g y).
Proof.
  intros G Fx Fy Hx Hy. assert (E : v64 x + v64 y = (wv g x + wv g y) * bpow radix2 g) by (rewrite (wv_v g x), (wv_v g y); ring).
  destruct (add_ok x y Fx Fy) as [F V]; [rewrite E; apply big_ok; auto; apply Rabs_le; apply Rabs_le_inv in Hx, Hy; lra|]. split; auto. unfold wv at 1. rewrite V, E. reflexivity.
Qed.
Lemma mul_w g h x y : (g + h <= 900)%Z -> ffin x -> ffin y -> Rabs (wv g x) <= 1000000000000 -> Rabs (wv h y) <= 1000000000000 -> ffin (SFmul 53 1024 x y) /\ wv (g + h) (SFmul 53 1024 x y) = rn (g + h) (wv g x * wv h y).
Proof.
  intros G Fx Fy Hx Hy. assert (E : v64 x * v64 y = (wv g x * wv h y) * bpow radix2 (g + h)) by (rewrite (wv_v g x), (wv_v h y), bpow_plus; ring).
  destruct (mul_ok x y Fx Fy) as [F V].
  - rewrite E. apply big_ok; auto. rewrite Rabs_mult. apply Rle_trans with (1000000000000 * 1000000000000); [apply Rmult_le_compat; auto; apply Rabs_pos|lra].
  - split; auto. unfold wv at 1. rewrite V, E. reflexivity.
Qed.
Lemma rn_err g z k : (-1000 <= k + g)%Z -> Rabs z <= bpow radix2 k -> Rabs (rn g z - z) <= bpow radix2 (k - 53).
Proof.
  intros G H. pose proof (bpow_pos g) as P. pose proof (bpow_pos (- g)) as P'. replace (rn g z - z) with ((rnd (z * bpow radix2 g) - z * bpow radix2 g) * bpow radix2 (- g)).
  - rewrite Rabs_mult, (Rabs_pos_eq (bpow radix2 (- g))) by lra. replace (k - 53)%Z with (k + g - 53 + - g)%Z by lia. rewrite bpow_plus. apply Rmult_le_compat_r; [lra|].
    apply rnd_err; auto. rewrite Rabs_mult, (Rabs_pos_eq (bpow radix2 g)), bpow_plus by lra. apply Rmult_le_compat_r; [lra|exact H].
  - unfold rn. rewrite Rmult_minus_distr_r, Rmult_assoc, bpow_inv. ring.
Qed.
Lemma rn_0 g : rn g 0 = 0. Proof. unfold rn. rewrite Rmult_0_l, round_0 by typeclasses eauto. ring. Qed.
Lemma rn_mono g x y : x <= y -> rn g x <= rn g y.
Proof. intro H. unfold rn. pose proof (bpow_pos g). pose proof (bpow_pos (- g)). apply Rmult_le_compat_r; [lra|]. apply rnd_mono. apply Rmult_le_compat_r; lra. Qed.
Lemma rn_id g x : ffin x -> rn g (wv g x) = wv g x.
Proof. intro F. unfold rn. rewrite <- wv_v, rnd_id by exact F. reflexivity. Qed.
Lemma fixed_ok g n : (-20 <= g <= 400)%Z -> (Z.abs n <= 2 ^ 53)%Z -> ffin (fixed g n) /\ wv g (fixed g n) = IZR n.
Proof.
  intros G H. unfold fixed. rewrite normalize_equiv.
  pose proof (BinarySingleNaN.binary_normalize_correct 53 1024 Hp Hpm BinarySingleNaN.mode_NE n g false) as C. cbv zeta in C. change (BinarySingleNaN.round_mode BinarySingleNaN.mode_NE) with ZnearestE in C.
  assert (FE : F2R (Float radix2 n g) = IZR n * bpow radix2 g) by reflexivity. rewrite FE in C.
  assert (GF : generic_format radix2 (SpecFloat.fexp 53 1024) (IZR n * bpow radix2 g)).
  { destruct (Z.eq_dec n 0) as [->|NZ]; [rewrite Rmult_0_l; apply generic_format_0|].
    destruct (Z.eq_dec (Z.abs n) (2 ^ 53)) as [Q|Q].
    - assert (IZR n * bpow radix2 g = bpow radix2 (53 + g) \/ IZR n * bpow radix2 g = - bpow radix2 (53 + g)) as [-> | ->].
      { rewrite bpow_plus. change (bpow radix2 53) with (IZR (2 ^ 53)). destruct (Z.abs_spec n) as [[_ A]|[_ A]]; [left|right].
        - replace n with (2 ^ 53)%Z by lia. reflexivity.
        - replace n with (- 2 ^ 53)%Z by lia. rewrite opp_IZR. ring. }
      + apply generic_format_bpow. rewrite fexp_val. lia.
      + apply generic_format_opp, generic_format_bpow. rewrite fexp_val. lia.
    - rewrite <- FE. apply generic_format_F2R. intro NZ'. unfold cexp. rewrite fexp_val.
      assert (mag radix2 (F2R (Float radix2 n g)) <= 53 + g)%Z; [|lia].
      apply mag_le_bpow; [intro Z0; apply NZ'; apply (eq_0_F2R radix2 _ g); exact Z0|].
      rewrite FE, Rabs_mult, (Rabs_pos_eq (bpow radix2 g)), bpow_plus by apply bpow_ge_0. apply Rmult_lt_compat_r; [apply bpow_gt_0|].
      rewrite <- abs_IZR. change (bpow radix2 53) with (IZR (2 ^ 53)). apply IZR_lt. lia. }
  rewrite round_generic in C by (auto; typeclasses eauto). rewrite Rlt_bool_true in C.
  - destruct C as (C1 & C2 & _). destruct (B_fin _ C2) as [C3 C4]. split; auto. unfold wv. rewrite C4, C1, Rmult_assoc, bpow_inv. ring.
  - rewrite Rabs_mult, (Rabs_pos_eq (bpow radix2 g)), <- abs_IZR by apply bpow_ge_0. apply Rle_lt_trans with (bpow radix2 53 * bpow radix2 400).
    + apply Rmult_le_compat; [apply IZR_le; lia|apply bpow_ge_0|change (bpow radix2 53) with (IZR (2 ^ 53)); apply IZR_le; auto|apply bpow_le; lia].
    + rewrite <- bpow_plus. apply bpow_lt. lia.
Qed.

Section Unit.
Variable e : Z.
Hypothesis EB : unit_ok e.
Notation w := (wv e).
Notation w2 := (wv (e + e)).
Lemma rnd_20 z : Rabs z <= 1048576 -> Rabs (rn e z - z) <= / 8589934592.
Proof using EB. intro H. apply (rn_err e z 20); [unfold unit_ok in EB; lia|]. exact H. Qed.
Lemma rnd_17 z : Rabs z <= 131072 -> Rabs (rn e z - z) <= / 68719476736.
Proof using EB. intro H. apply (rn_err e z 17); [unfold unit_ok in EB; lia|]. exact H. Qed.
Lemma rnd_40 z : Rabs z <= 1099511627776 -> Rabs (rn (e + e) z - z) <= / 8192.
Proof using EB. intro H. apply (rn_err (e + e) z 40); [unfold unit_ok in EB; lia|]. exact H. Qed.
Lemma e1 : (e <= 900)%Z. Proof using EB. unfold unit_ok in EB; lia. Qed.
Lemma e2 : (e + e <= 900)%Z. Proof using EB. unfold unit_ok in EB; lia. Qed.

(** ** approximations: x is close to the tenth X/10 *)
Definition dl : R := / 17179869184.
Definition near (x : spec_float) (X : Z) : Prop := ffin x /\ Rabs (w x - IZR X / 10) <= dl /\ (Z.abs X <= 1310720)%Z.
Lemma near_bound x X : near x X -> Rabs (IZR X / 10) <= 131072 /\ Rabs (w x) <= 131073.
Proof.
  intros (F & H & B). apply IZR_le in B. rewrite abs_IZR in B.
  assert (Q : Rabs (IZR X / 10) <= 131072) by (apply Rabs_le; apply Rabs_le_inv in B; lra).
  split; auto. unfold dl in H. apply Rabs_le. apply Rabs_le_inv in H, Q. lra.
Qed.
(** differences *)
Definition nearD (d : spec_float) (D : R) : Prop := ffin d /\ Rabs (w d - D) <= / 4294967296 /\ Rabs D <= 262144.
Lemma near_sub x y X Y : near x X -> near y Y -> nearD (SFsub 53 1024 x y) (IZR X / 10 - IZR Y / 10) /\ w (SFsub 53 1024 x y) = rn e (w x - w y).
Proof.
  intros Nx Ny. destruct (near_bound _ _ Nx) as [B1 B2], (near_bound _ _ Ny) as [B3 B4]. destruct Nx as (Fx & Hx & _), Ny as (Fy & Hy & _).
  destruct (sub_w e x y e1 Fx Fy) as [F V]; [lra|lra|]. split; auto. split; auto. rewrite V.
  assert (E : Rabs (rn e (w x - w y) - (w x - w y)) <= / 8589934592).
  { apply rnd_20. apply Rabs_le; apply Rabs_le_inv in B2, B4; lra. }
  unfold dl in *. set (r := rn e _) in *. clearbody r. set (a := IZR X / 10) in *. set (b := IZR Y / 10) in *. clearbody a b. revert B1 B3 Hx Hy E. clear - e.
  generalize (wv e x) (wv e y). intros u v. intros. split; apply Rabs_le; apply Rabs_le_inv in B1, B3, Hx, Hy, E; lra.
Qed.
Lemma prod_close a b P Q h K : Rabs (a - P) <= h -> Rabs (b - Q) <= h -> Rabs P <= K -> Rabs Q <= K -> Rabs (a * b - P * Q) <= 2 * K * h + h * h.
Proof.
  intros H1 H2 H3 H4. replace (a * b - P * Q) with ((a - P) * (b - Q) + ((a - P) * Q + P * (b - Q))) by ring.
  pose proof (Rabs_pos (a - P)). pose proof (Rabs_pos (b - Q)). pose proof (Rabs_pos P). pose proof (Rabs_pos Q).
  eapply Rle_trans; [apply Rabs_triang|]. eapply Rle_trans; [apply Rplus_le_compat_l, Rabs_triang|]. rewrite !Rabs_mult.
  assert (Rabs (a - P) * Rabs (b - Q) <= h * h) by (apply Rmult_le_compat; auto).
  assert (Rabs (a - P) * Rabs Q <= h * K) by (apply Rmult_le_compat; auto).
  assert (Rabs P * Rabs (b - Q) <= K * h) by (apply Rmult_le_compat; auto). lra.
Qed.
(** the rounded determinant of rounded differences *)
Lemma det_close d1 d2 d3 d4 D1 D2 D3 D4 : nearD d1 D1 -> nearD d2 D2 -> nearD d3 D3 -> nearD d4 D4 ->
  let f := SFsub 53 1024 (SFmul 53 1024 d1 d2) (SFmul 53 1024 d3 d4) in
  ffin f /\ Rabs (w2 f - (D1 * D2 - D3 * D4)) <= / 512 /\ (w d1 * w d2 = w d3 * w d4 -> w2 f = 0).
Proof.
  intros (F1 & H1 & B1) (F2 & H2 & B2) (F3 & H3 & B3) (F4 & H4 & B4) f.
  assert (BB : forall d D, Rabs (w d - D) <= / 4294967296 -> Rabs D <= 262144 -> Rabs (w d) <= 262145).
  { intros d D Q1 Q2. apply Rabs_le; apply Rabs_le_inv in Q1, Q2; lra. }
  pose proof (BB _ _ H1 B1) as C1. pose proof (BB _ _ H2 B2) as C2. pose proof (BB _ _ H3 B3) as C3. pose proof (BB _ _ H4 B4) as C4.
  destruct (mul_w e e d1 d2 e2 F1 F2) as [FA VA]; [lra|lra|]. destruct (mul_w e e d3 d4 e2 F3 F4) as [FB VB]; [lra|lra|].
  assert (PB : forall x y, Rabs x <= 262145 -> Rabs y <= 262145 -> Rabs (x * y) <= 68720001025).
  { intros x y Q1 Q2. rewrite Rabs_mult. apply Rle_trans with (262145 * 262145); [apply Rmult_le_compat; auto; apply Rabs_pos|lra]. }
  pose proof (PB _ _ C1 C2) as P1. pose proof (PB _ _ C3 C4) as P2.
  pose proof (rnd_40 (w d1 * w d2) ltac:(lra)) as E1. pose proof (rnd_40 (w d3 * w d4) ltac:(lra)) as E2. rewrite <- VA in E1. rewrite <- VB in E2.
  pose proof (prod_close _ _ _ _ _ _ H1 H2 B1 B2) as Q1. pose proof (prod_close _ _ _ _ _ _ H3 H4 B3 B4) as Q2.
  set (a := SFmul 53 1024 d1 d2) in *. set (b := SFmul 53 1024 d3 d4) in *.
  assert (BA : Rabs (w2 a) <= 68720001026). { apply Rabs_le. apply Rabs_le_inv in E1, P1. lra. }
  assert (BBB : Rabs (w2 b) <= 68720001026). { apply Rabs_le. apply Rabs_le_inv in E2, P2. lra. }
  destruct (sub_w (e + e) a b e2 FA FB) as [FF VF]; [lra|lra|]. fold f in FF, VF.
  assert (E3 : Rabs (w2 f - (w2 a - w2 b)) <= / 8192). { rewrite VF. apply rnd_40. apply Rabs_le. apply Rabs_le_inv in BA, BBB. lra. }
  split; auto. split.
  - apply Rabs_le. apply Rabs_le_inv in E1, E2, E3, Q1, Q2. lra.
  - intro Q. rewrite VF, VA, VB, Q. rewrite Rminus_diag_eq; auto. apply rn_0.
Qed.

(** ** points *)
Definition nearp (p : @Point F64) (z : zpt) : Prop := near (px p) (fst z) /\ near (py p) (snd z).
Lemma nearp_fin p z : nearp p z -> @finp F64 _ p.
Proof. intros [(F1 & _) (F2 & _)]. split; assumption. Qed.
Definition orR (a b c : R * R) : R := (fst a - fst c) * (snd b - snd c) - (snd a - snd c) * (fst b - fst c).
Definition vp (p : @Point F64) : R * R := (w (px p), w (py p)).
Definition tz (z : zpt) : R * R := (IZR (fst z) / 10, IZR (snd z) / 10).
Lemma orient_tz a b c : orR (tz a) (tz b) (tz c) = IZR (orient a b c) / 100.
Proof. unfold orR, tz, orient, orient_det. cbn [fst snd]. rewrite minus_IZR, !mult_IZR, !minus_IZR. field. Qed.
Lemma orient_vp (a b c : @Point F64) : finp a -> finp b -> finp c -> IZR (orient (zp a) (zp b) (zp c)) = orR (vp a) (vp b) (vp c) * (bpow radix2 (1074 + e) * bpow radix2 (1074 + e)).
Proof.
  intros [A1 A2] [B1 B2] [C1 C2]. unfold orient, orient_det, zp. cbn [fst snd]. change (@zv F64 F64_exact) with (sf_zv 53 1024).
  rewrite minus_IZR, !mult_IZR, !minus_IZR, !zv_val by assumption. rewrite bpow_plus, !(wv_v e). unfold orR, vp. cbn [fst snd]. ring.
Qed.
Lemma vp_near (p : @Point F64) z : nearp p z -> Rabs (fst (vp p) - fst (tz z)) <= dl /\ Rabs (snd (vp p) - snd (tz z)) <= dl /\ Rabs (fst (tz z)) <= 131072 /\ Rabs (snd (tz z)) <= 131072.
Proof. intros [N1 N2]. destruct (near_bound _ _ N1) as [B1 _], (near_bound _ _ N2) as [B2 _]. destruct N1 as (_ & H1 & _), N2 as (_ & H2 & _). auto. Qed.
Lemma orR_close p q r a b c : nearp p a -> nearp q b -> nearp r c -> Rabs (orR (vp p) (vp q) (vp r) - IZR (orient a b c) / 100) <= / 512.
Proof.
  intros Hp Hq Hr. rewrite <- orient_tz. apply vp_near in Hp as (P1 & P2 & P3 & P4), Hq as (Q1 & Q2 & Q3 & Q4), Hr as (R1 & R2 & R3 & R4).
  unfold orR. set (x := fst (vp p)) in *. set (y := snd (vp p)) in *. set (x' := fst (vp q)) in *. set (y' := snd (vp q)) in *. set (x'' := fst (vp r)) in *. set (y'' := snd (vp r)) in *.
  assert (D : forall u v s t, Rabs (u - s) <= dl -> Rabs (v - t) <= dl -> Rabs ((u - v) - (s - t)) <= / 4294967296).
  { unfold dl. intros u v s t U V. apply Rabs_le. apply Rabs_le_inv in U, V. lra. }
  assert (K : forall s t, Rabs s <= 131072 -> Rabs t <= 131072 -> Rabs (s - t) <= 262144) by (intros s t U V; apply Rabs_le; apply Rabs_le_inv in U, V; lra).
  pose proof (prod_close _ _ _ _ _ _ (D _ _ _ _ P1 R1) (D _ _ _ _ Q2 R2) (K _ _ P3 R3) (K _ _ Q4 R4)) as E1.
  pose proof (prod_close _ _ _ _ _ _ (D _ _ _ _ P2 R2) (D _ _ _ _ Q1 R1) (K _ _ P4 R4) (K _ _ Q3 R3)) as E2.
  apply Rabs_le. apply Rabs_le_inv in E1, E2. lra.
Qed.
Lemma orient_near (p q r : @Point F64) a b c : nearp p a -> nearp q b -> nearp r c -> orient a b c <> 0%Z -> (0 < orient (zp p) (zp q) (zp r) <-> 0 < orient a b c)%Z /\ (orient (zp p) (zp q) (zp r) < 0 <-> orient a b c < 0)%Z.
Proof.
  intros Hp Hq Hr NZ. pose proof (orR_close _ _ _ _ _ _ Hp Hq Hr) as C. pose proof (orient_vp p q r (nearp_fin _ _ Hp) (nearp_fin _ _ Hq) (nearp_fin _ _ Hr)) as V.
  assert (P : 0 < bpow radix2 (1074 + e) * bpow radix2 (1074 + e)) by (apply Rmult_lt_0_compat; apply bpow_pos).
  apply Rabs_le_inv in C.
  assert (PO : (0 < orient a b c)%Z -> (0 < orient (zp p) (zp q) (zp r))%Z).
  { intro H. assert (H' : (1 <= orient a b c)%Z) by lia. apply IZR_le in H'. apply lt_IZR. rewrite V. apply Rmult_lt_0_compat; auto. lra. }
  assert (NE : (orient a b c < 0)%Z -> (orient (zp p) (zp q) (zp r) < 0)%Z).
  { intro H. assert (H' : (orient a b c <= -1)%Z) by lia. apply IZR_le in H'. apply lt_IZR. rewrite V.
    assert (0 < - orR (vp p) (vp q) (vp r) * (bpow radix2 (1074 + e) * bpow radix2 (1074 + e))) by (apply Rmult_lt_0_compat; auto; lra). lra. }
  split; split; intro H; auto; destruct (Z.lt_trichotomy (orient a b c) 0) as [Q|[Q|Q]]; auto; try contradiction; [apply NE in Q|apply PO in Q]; lia.
Qed.

(** ** constants *)
Lemma v_c03 : ffin (@f_c03 F64) /\ v64 (@f_c03 F64) = 5404319552844595 / 18014398509481984.
Proof. split; [vm_compute; reflexivity|]. unfold v64. cbn [f_c03 F64 BinarySingleNaN.SF2R]. unfold F2R. cbn [Fnum Fexp cond_Zopp]. change (bpow radix2 (-54)) with (/ 18014398509481984). reflexivity. Qed.
Lemma v_eps : ffin (@f_eps F64) /\ v64 (@f_eps F64) = / 4503599627370496 /\ ffin (@f_neg_eps F64) /\ v64 (@f_neg_eps F64) = - / 4503599627370496.
Proof.
  assert (Q : 4503599627370496 * bpow radix2 (-104) = / 4503599627370496).
  { replace (-104)%Z with (-52 + -52)%Z by reflexivity. rewrite bpow_plus. change (bpow radix2 (-52)) with (/ 4503599627370496). field. }
  split; [vm_compute; reflexivity|]. split; [|split; [vm_compute; reflexivity|]].
  - unfold v64. cbn [f_eps F64 BinarySingleNaN.SF2R]. unfold F2R. cbn [Fnum Fexp cond_Zopp]. exact Q.
  - unfold v64. cbn [f_neg_eps F64 BinarySingleNaN.SF2R]. unfold F2R. cbn [Fnum Fexp cond_Zopp]. change (IZR (- (4503599627370496))) with (- (4503599627370496)). rewrite <- Q. ring.
Qed.
Lemma v_zero : ffin (@f_zero F64) /\ v64 (@f_zero F64) = 0.
Proof. split; [reflexivity|]. reflexivity. Qed.
Lemma eps_w1 : 0 <= w (@f_eps F64) <= / 4294967296.
Proof using EB.
  unfold wv. rewrite (proj1 (proj2 v_eps)). change (/ 4503599627370496) with (bpow radix2 (-52)). rewrite <- bpow_plus. split; [apply bpow_ge_0|].
  change (/ 4294967296) with (bpow radix2 (-32)). apply bpow_le. unfold unit_ok in EB. lia.
Qed.
Lemma eps_w2 : 0 <= w2 (@f_eps F64) <= / 4096 /\ - / 4096 <= w2 (@f_neg_eps F64) <= 0.
Proof using EB.
  unfold wv. destruct v_eps as (_ & -> & _ & ->).
  assert (Q : 0 <= / 4503599627370496 * bpow radix2 (- (e + e)) <= / 4096).
  { change (/ 4503599627370496) with (bpow radix2 (-52)). rewrite <- bpow_plus. split; [apply bpow_ge_0|]. change (/ 4096) with (bpow radix2 (-12)). apply bpow_le. unfold unit_ok in EB. lia. }
  split; lra.
Qed.
Lemma v_MAX0 : ffin (@f_MAX F64) /\ 9007199254740991 * bpow radix2 971 <= v64 (@f_MAX F64) /\ ffin (@f_MIN F64) /\ v64 (@f_MIN F64) <= - 9007199254740991 * bpow radix2 971.
Proof.
  split; [vm_compute; reflexivity|]. split; [|split; [vm_compute; reflexivity|]].
  - unfold v64. cbn [f_MAX F64 BinarySingleNaN.SF2R]. unfold F2R. cbn [Fnum Fexp cond_Zopp]. change (IZR 9007199254740991) with 9007199254740991. lra.
  - unfold v64. cbn [f_MIN F64 BinarySingleNaN.SF2R]. unfold F2R. cbn [Fnum Fexp cond_Zopp]. change (IZR (- (9007199254740991))) with (- (9007199254740991)). lra.
Qed.

Lemma v_MAX : ffin (@f_MAX F64) /\ 9007199254740991 <= w (@f_MAX F64) /\ ffin (@f_MIN F64) /\ w (@f_MIN F64) <= - 9007199254740991.
Proof using EB.
  destruct v_MAX0 as (M1 & M2 & M3 & M4). pose proof (bpow_gt_0 radix2 (- e)) as P.
  assert (Q : 1 <= bpow radix2 971 * bpow radix2 (- e)) by (rewrite <- bpow_plus; change 1 with (bpow radix2 0); apply bpow_le; unfold unit_ok in EB; lia).
  apply (Rmult_le_compat_r _ _ _ (Rlt_le _ _ P)) in M2, M4. unfold wv. split; auto. split; [|split; auto]; lra.
Qed.
Lemma v_zero2 : w2 (@f_zero F64) = 0. Proof. unfold wv. rewrite (proj2 v_zero). ring. Qed.

(** ** the bounding box *)
Lemma fold_max (g : @Point F64 -> spec_float) l : forall m, ffin m -> Forall (fun p => ffin (g p)) l ->
  let r := fold_left (fun m p => @f_max F64 m (g p)) l m in
  ffin r /\ v64 m <= v64 r /\ (forall p, In p l -> v64 (g p) <= v64 r) /\ (r = m \/ exists p, In p l /\ r = g p).
Proof.
  induction l as [|p l IH]; intros m Fm Fl; cbn [fold_left].
  - split; auto. split; [lra|]. split; [intros ? []|auto].
  - inversion Fl as [|? ? Fp Fl']; subst.
    assert (C : (@f_max F64 m (g p) = m /\ v64 (g p) <= v64 m) \/ (@f_max F64 m (g p) = g p /\ v64 m <= v64 (g p))).
    { unfold f_max. pose proof (flt_v m (g p) Fm Fp) as Q. destruct (@f_lt F64 m (g p)); [right; split; [auto|apply Rlt_le, Q; auto]|]. left.
      rewrite (proj2 (feq_v m m Fm Fm) eq_refl). split; auto. apply Rnot_lt_le. intro Z0. apply Q in Z0. discriminate. }
    assert (FM : ffin (@f_max F64 m (g p))) by (destruct C as [[-> _]|[-> _]]; auto).
    destruct (IH _ FM Fl') as (R1 & R2 & R3 & R4). cbv zeta. set (r := fold_left _ l _) in *.
    split; auto. destruct C as [[C1 C2]|[C1 C2]]; rewrite C1 in *.
    + split; auto. split; [intros q [<-|Hq]; [lra|auto]|]. destruct R4 as [R4|(q & Hq & R4)]; [auto|right; exists q; split; [right|]; auto].
    + split; [lra|]. split; [intros q [<-|Hq]; [auto|auto]|]. right. destruct R4 as [R4|(q & Hq & R4)]; [exists p; split; [left|]; auto|exists q; split; [right|]; auto].
Qed.
Lemma fold_min (g : @Point F64 -> spec_float) l : forall m, ffin m -> Forall (fun p => ffin (g p)) l ->
  let r := fold_left (fun m p => @f_min F64 m (g p)) l m in
  ffin r /\ v64 r <= v64 m /\ (forall p, In p l -> v64 r <= v64 (g p)) /\ (r = m \/ exists p, In p l /\ r = g p).
Proof.
  induction l as [|p l IH]; intros m Fm Fl; cbn [fold_left].
  - split; auto. split; [lra|]. split; [intros ? []|auto].
  - inversion Fl as [|? ? Fp Fl']; subst.
    assert (C : (@f_min F64 m (g p) = m /\ v64 m <= v64 (g p)) \/ (@f_min F64 m (g p) = g p /\ v64 (g p) <= v64 m)).
    { unfold f_min. pose proof (flt_v (g p) m Fp Fm) as Q. destruct (@f_lt F64 (g p) m); [right; split; [auto|apply Rlt_le, Q; auto]|]. left.
      rewrite (proj2 (feq_v m m Fm Fm) eq_refl). split; auto. apply Rnot_lt_le. intro Z0. apply Q in Z0. discriminate. }
    assert (FM : ffin (@f_min F64 m (g p))) by (destruct C as [[-> _]|[-> _]]; auto).
    destruct (IH _ FM Fl') as (R1 & R2 & R3 & R4). cbv zeta. set (r := fold_left _ l _) in *.
    split; auto. destruct C as [[C1 C2]|[C1 C2]]; rewrite C1 in *.
    + split; auto. split; [intros q [<-|Hq]; [lra|auto]|]. destruct R4 as [R4|(q & Hq & R4)]; [auto|right; exists q; split; [right|]; auto].
    + split; [lra|]. split; [intros q [<-|Hq]; [auto|auto]|]. right. destruct R4 as [R4|(q & Hq & R4)]; [exists p; split; [left|]; auto|exists q; split; [right|]; auto].
Qed.
Lemma greatest_ok l : l <> [] -> In (greatest l) l /\ forall x, In x l -> (x <= greatest l)%Z.
Proof.
  intro NE. unfold greatest.
  assert (G : forall d l, (forall x, In x l -> (x <= fold_right Z.max d l)%Z) /\ (fold_right Z.max d l = d \/ In (fold_right Z.max d l) l)).
  { intros d m. induction m as [|y m [IH1 IH2]]; cbn; [split; [intros ? []|auto]|]. split.
    - intros x [<-|H]; [lia|]. specialize (IH1 x H). lia.
    - destruct (Z.max_spec y (fold_right Z.max d m)) as [[_ ->]|[_ ->]]; auto. destruct IH2; auto. }
  destruct (G (hd 0%Z l) l) as [G1 G2]. split; auto. destruct G2 as [->|]; auto. destruct l; [congruence|left; auto].
Qed.
Lemma least_ok l : l <> [] -> In (least l) l /\ forall x, In x l -> (least l <= x)%Z.
Proof.
  intro NE. unfold least.
  assert (G : forall d l, (forall x, In x l -> (fold_right Z.min d l <= x)%Z) /\ (fold_right Z.min d l = d \/ In (fold_right Z.min d l) l)).
  { intros d m. induction m as [|y m [IH1 IH2]]; cbn; [split; [intros ? []|auto]|]. split.
    - intros x [<-|H]; [lia|]. specialize (IH1 x H). lia.
    - destruct (Z.min_spec y (fold_right Z.min d m)) as [[_ ->]|[_ ->]]; auto. destruct IH2; auto. }
  destruct (G (hd 0%Z l) l) as [G1 G2]. split; auto. destruct G2 as [->|]; auto. destruct l; [congruence|left; auto].
Qed.

Definition small (z : zpt) : Prop := (Z.abs (fst z) <= 65536)%Z /\ (Z.abs (snd z) <= 65536)%Z.
Lemma f64_small n : (Z.abs n <= 65536)%Z -> ffin (fixed e n) /\ w (fixed e n) = IZR n /\ near (fixed e n) (10 * n).
Proof.
  intro H. destruct (fixed_ok e n EB) as [F V]; [lia|]. split; auto. split; auto. split; auto. rewrite V, mult_IZR. split; [|lia].
  replace (IZR n - 10 * IZR n / 10) with 0 by field. rewrite Rabs_R0. unfold dl. lra.
Qed.
(** one coordinate at a time: [g] the coordinate of a point, [c] of an integer point *)
Lemma bbox (g : @Point F64 -> spec_float) (c : zpt -> Z) zs : zs <> [] -> (forall z, In z zs -> g (grid e z) = fixed e (c z) /\ (Z.abs (c z) <= 65536)%Z) ->
  let hi := fold_left (fun m p => @f_max F64 m (g p)) (map (grid e) zs) (@f_MIN F64) in
  let lo := fold_left (fun m p => @f_min F64 m (g p)) (map (grid e) zs) (@f_MAX F64) in
  ffin hi /\ w hi = IZR (greatest (map c zs)) /\ ffin lo /\ w lo = IZR (least (map c zs)) /\
  (least (map c zs) <= greatest (map c zs))%Z /\ (Z.abs (least (map c zs)) <= 65536)%Z /\ (Z.abs (greatest (map c zs)) <= 65536)%Z.
Proof.
  intros NE G hi lo.
  assert (F : Forall (fun p => ffin (g p)) (map (grid e) zs)).
  { apply Forall_forall. intros p Hp. apply in_map_iff in Hp as (z & <- & Hz). destruct (G z Hz) as [-> B]. apply f64_small; auto. }
  assert (NE' : map c zs <> []) by (destruct zs; [congruence|discriminate]).
  destruct v_MAX as (M1 & M2 & M3 & M4).
  destruct (fold_max g (map (grid e) zs) _ M3 F) as (H1 & _ & H3 & H4). fold hi in H1, H3, H4.
  destruct (fold_min g (map (grid e) zs) _ M1 F) as (L1 & _ & L3 & L4). fold lo in L1, L3, L4.
  destruct (greatest_ok _ NE') as [I1' I2'], (least_ok _ NE') as [J1 J2].
  assert (VAL : forall p, In p (map (grid e) zs) -> exists z, In z zs /\ w (g p) = IZR (c z) /\ (Z.abs (c z) <= 65536)%Z).
  { intros p Hp. apply in_map_iff in Hp as (z & <- & Hz). destruct (G z Hz) as [Q B]. exists z. rewrite Q. split; auto. split; auto. apply f64_small; auto. }
  assert (BD : forall x, In x (map c zs) -> (Z.abs x <= 65536)%Z) by (intros x Hx; apply in_map_iff in Hx as (z & <- & Hz); apply G; auto).
  assert (VC : forall x, In x (map c zs) -> exists p, In p (map (grid e) zs) /\ w (g p) = IZR x).
  { intros x Hx. apply in_map_iff in Hx as (z & <- & Hz). exists (grid e z). split; [apply in_map; auto|]. destruct (G z Hz) as [-> B]. apply f64_small; auto. }
  assert (VH : w hi = IZR (greatest (map c zs))).
  { destruct (VC _ I1') as (p & Hp & Vp). pose proof (proj1 (wv_le e _ _) (H3 p Hp)) as Q. rewrite Vp in Q. apply Rle_antisym; auto.
    destruct H4 as [H4|(q & Hq & H4)].
    - exfalso. rewrite H4 in Q. specialize (BD _ I1'). apply Z.abs_le in BD. assert (B := proj1 BD). apply IZR_le in B. change (IZR (- (65536))) with (- (65536)) in B. lra.
    - rewrite H4. destruct (VAL q Hq) as (z & Hz & -> & _). apply IZR_le, I2', in_map. auto. }
  assert (VL : w lo = IZR (least (map c zs))).
  { destruct (VC _ J1) as (p & Hp & Vp). pose proof (proj1 (wv_le e _ _) (L3 p Hp)) as Q. rewrite Vp in Q. apply Rle_antisym; auto.
    destruct L4 as [L4|(q & Hq & L4)].
    - exfalso. rewrite L4 in Q. specialize (BD _ J1). apply Z.abs_le in BD. assert (B := proj2 BD). apply IZR_le in B. lra.
    - rewrite L4. destruct (VAL q Hq) as (z & Hz & -> & _). apply IZR_le, J2, in_map. auto. }
  repeat (split; [first [assumption | apply I2'; exact J1 | apply BD; assumption]|]). apply BD; assumption.
Qed.
(** the artificial coordinates *)
Lemma frame_near lo hi (a b : Z) : ffin lo -> ffin hi -> w lo = IZR a -> w hi = IZR b -> (a <= b)%Z -> (Z.abs a <= 65536)%Z -> (Z.abs b <= 65536)%Z ->
  let d := SFmul 53 1024 (SFsub 53 1024 hi lo) (@f_c03 F64) in
  near (SFsub 53 1024 lo d) (10 * a - 3 * (b - a)) /\ near (SFadd 53 1024 hi d) (10 * b + 3 * (b - a)).
Proof.
  intros Fl Fh Vl Vh AB Ba Bb d.
  assert (Ra : - 65536 <= IZR a <= 65536) by (split; [change (- 65536) with (IZR (- 65536))|]; apply IZR_le; lia).
  assert (Rb : - 65536 <= IZR b <= 65536) by (split; [change (- 65536) with (IZR (- 65536))|]; apply IZR_le; lia).
  assert (Rab : IZR a <= IZR b) by (apply IZR_le; auto).
  destruct (sub_w e hi lo e1 Fh Fl) as [Fs Vs]; [rewrite Vh; apply Rabs_le; lra|rewrite Vl; apply Rabs_le; lra|].
  rewrite Vh, Vl, <- minus_IZR in Vs. assert (RI : rn e (IZR (b - a)) = IZR (b - a)) by (destruct (fixed_ok e (b - a) EB) as [Ff Vf]; [lia|]; rewrite <- Vf at 1; rewrite (rn_id e _ Ff); exact Vf). rewrite RI in Vs.
  assert (Rd : 0 <= IZR (b - a) <= 131072) by (rewrite minus_IZR; lra).
  destruct v_c03 as [Fc Vc].
  assert (Vc0 : wv 0 (@f_c03 F64) = 5404319552844595 / 18014398509481984) by (unfold wv; rewrite Vc; change (bpow radix2 (- 0)) with 1; ring).
  destruct (mul_w e 0 _ (@f_c03 F64) ltac:(pose proof e1; lia) Fs Fc) as [Fd Vd]; [rewrite Vs; apply Rabs_le; lra|rewrite Vc0; apply Rabs_le; lra|]. fold d in Fd, Vd. rewrite Z.add_0_r in Vd. rewrite Vs, Vc0 in Vd.
  assert (Ed : Rabs (w d - IZR (b - a) * (5404319552844595 / 18014398509481984)) <= / 68719476736).
  { rewrite Vd. apply rnd_17. apply Rabs_le. split; lra. }
  apply Rabs_le_inv in Ed.
  destruct (sub_w e lo d e1 Fl Fd) as [F1 V1]; [rewrite Vl; apply Rabs_le; lra|apply Rabs_le; lra|].
  destruct (add_w e hi d e1 Fh Fd) as [F2 V2]; [rewrite Vh; apply Rabs_le; lra|apply Rabs_le; lra|].
  rewrite Vl in V1. rewrite Vh in V2.
  assert (E1 : Rabs (w (SFsub 53 1024 lo d) - (IZR a - w d)) <= / 68719476736) by (rewrite V1; apply rnd_17; apply Rabs_le; rewrite minus_IZR in *; lra).
  assert (E2 : Rabs (w (SFadd 53 1024 hi d) - (IZR b + w d)) <= / 68719476736) by (rewrite V2; apply rnd_17; apply Rabs_le; rewrite minus_IZR in *; lra).
  apply Rabs_le_inv in E1, E2. unfold near, dl.
  split; (split; [assumption|]); (split; [|lia]); rewrite ?minus_IZR, ?plus_IZR, ?mult_IZR in *; rewrite ?minus_IZR in *; apply Rabs_le; lra.
Qed.

End Unit.
