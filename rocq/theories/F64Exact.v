(** * F64Exact: f64 and f32 satisfy the laws of Exact.v *)
From Coq Require Import ZArith Bool Lia List.
From Coq.Floats Require Import SpecFloat.
From Verif Require Import Base Num F64 Exact.
Import ListNotations.
Local Open Scope Z_scope.

Section Float.
Variables prec emax : Z.
Hypothesis Hprec : 0 < prec.
Hypothesis Hemax : prec < emax.

Notation emin := (SpecFloat.emin prec emax).

(** a finite float in canonical form (what the hardware can hold) *)
Definition sf_fin (x : spec_float) : Prop :=
  match x with S754_zero _ | S754_finite _ _ _ => valid_binary prec emax x = true | _ => False end.

Definition sf_zv (x : spec_float) : Z :=
  match x with
  | S754_finite s m e => (if s then Zneg m else Zpos m) * 2 ^ (e - emin)
  | _ => 0
  end.

Lemma digits2_pos_bounds m : 2 ^ (Zpos (digits2_pos m) - 1) <= Zpos m < 2 ^ (Zpos (digits2_pos m)).
Proof.
  assert (G : forall d m p, 2 ^ (Zpos d - 1) <= Zpos m < 2 ^ Zpos d ->
              p = 2 * Zpos m \/ p = 2 * Zpos m + 1 ->
              2 ^ (Zpos (Pos.succ d) - 1) <= p < 2 ^ Zpos (Pos.succ d)).
  { intros d n p [H1 H2] Hp. rewrite Pos2Z.inj_succ.
    replace (Z.succ (Zpos d) - 1) with (Z.succ (Zpos d - 1)) by lia.
    rewrite !Z.pow_succ_r by lia. lia. }
  induction m as [m IH|m IH|]; cbn [digits2_pos].
  - eapply G; [exact IH|]. lia.
  - eapply G; [exact IH|]. lia.
  - simpl. lia.
Qed.

Lemma valid_finite s m e : valid_binary prec emax (S754_finite s m e) = true ->
  emin <= e <= emax - prec /\ Zpos m < 2 ^ prec /\ (emin < e -> 2 ^ (prec - 1) <= Zpos m).
Proof.
  cbn [valid_binary]. unfold bounded, canonical_mantissa, fexp.
  rewrite andb_true_iff. intros [H1 H2].
  apply Zeq_bool_eq in H1. apply Z.leb_le in H2.
  pose proof (digits2_pos_bounds m) as [B1 B2].
  set (d := Zpos (digits2_pos m)) in *.
  split; [lia|]. split.
  - apply Z.lt_le_trans with (1 := B2). apply Z.pow_le_mono_r; lia.
  - intro. replace prec with d by lia. auto.
Qed.

Lemma mag_lt m1 e1 m2 e2 :
  valid_binary prec emax (S754_finite false m1 e1) = true ->
  valid_binary prec emax (S754_finite false m2 e2) = true -> e1 < e2 ->
  Zpos m1 * 2 ^ (e1 - emin) < Zpos m2 * 2 ^ (e2 - emin).
Proof.
  intros H1 H2 L. apply valid_finite in H1 as (A1 & A2 & A3). apply valid_finite in H2 as (B1 & B2 & B3).
  specialize (B3 ltac:(lia)).
  assert (P1 : 0 < 2 ^ (e1 - emin)) by (apply Z.pow_pos_nonneg; lia).
  assert (P2 : 0 < 2 ^ (e2 - emin)) by (apply Z.pow_pos_nonneg; lia).
  apply Z.lt_le_trans with (2 ^ prec * 2 ^ (e1 - emin)).
  { apply Z.mul_lt_mono_pos_r; auto. }
  apply Z.le_trans with (2 ^ (prec - 1) * 2 ^ (e2 - emin)).
  { rewrite <- !Z.pow_add_r by lia. apply Z.pow_le_mono_r; lia. }
  apply Z.mul_le_mono_nonneg_r; lia.
Qed.

Lemma mag_cmp m1 e1 m2 e2 :
  valid_binary prec emax (S754_finite false m1 e1) = true ->
  valid_binary prec emax (S754_finite false m2 e2) = true ->
  (Zpos m1 * 2 ^ (e1 - emin) ?= Zpos m2 * 2 ^ (e2 - emin)) =
  match e1 ?= e2 with Lt => Lt | Gt => Gt | Eq => Pcompare m1 m2 Eq end.
Proof.
  intros H1 H2. destruct (Z.compare_spec e1 e2) as [->|L|L].
  - apply valid_finite in H2 as (A1 & _).
    assert (P2 : 0 < 2 ^ (e2 - emin)) by (apply Z.pow_pos_nonneg; lia).
    rewrite <- (Zmult_compare_compat_r (Zpos m1) (Zpos m2) (2 ^ (e2 - emin)) (Z.lt_gt _ _ P2)). reflexivity.
  - apply Z.compare_lt_iff. apply mag_lt; auto.
  - apply Z.compare_gt_iff. apply mag_lt; auto.
Qed.

Lemma sf_zv_neg m e : sf_zv (S754_finite true m e) = - sf_zv (S754_finite false m e).
Proof. cbn [sf_zv]. change (Zneg m) with (- Zpos m). ring. Qed.

Lemma sf_zv_pos m e : valid_binary prec emax (S754_finite false m e) = true -> 0 < sf_zv (S754_finite false m e).
Proof.
  intro H. apply valid_finite in H as (H & _). cbn [sf_zv].
  assert (0 < 2 ^ (e - emin)) by (apply Z.pow_pos_nonneg; lia). lia.
Qed.

Lemma SFcompare_exact x y : sf_fin x -> sf_fin y -> SFcompare x y = Some (sf_zv x ?= sf_zv y).
Proof.
  assert (V : forall s m e, valid_binary prec emax (S754_finite s m e) = true ->
              valid_binary prec emax (S754_finite false m e) = true) by auto.
  intros Fx Fy.
  destruct x as [sx|sx| |sx mx ex], y as [sy|sy| |sy my ey]; try contradiction; cbn [sf_fin] in *.
  - reflexivity.
  - pose proof (sf_zv_pos my ey Fy) as P. unfold SFcompare.
    destruct sy; f_equal; symmetry; [rewrite sf_zv_neg; apply Z.compare_gt_iff|apply Z.compare_lt_iff]; cbn [sf_zv] in *; lia.
  - pose proof (sf_zv_pos mx ex Fx) as P. unfold SFcompare.
    destruct sx; f_equal; symmetry; [rewrite sf_zv_neg; apply Z.compare_lt_iff|apply Z.compare_gt_iff]; cbn [sf_zv] in *; lia.
  - pose proof (sf_zv_pos mx ex Fx) as Px. pose proof (sf_zv_pos my ey Fy) as Py.
    pose proof (mag_cmp mx ex my ey Fx Fy) as M.
    destruct sx, sy; unfold SFcompare.
    + rewrite !sf_zv_neg. rewrite Z.compare_opp, (Z.compare_antisym (sf_zv (S754_finite false mx ex))). cbn [sf_zv].
      rewrite M. destruct (ex ?= ey); try reflexivity.
    + f_equal; symmetry; rewrite sf_zv_neg; apply Z.compare_lt_iff; lia.
    + f_equal; symmetry; rewrite sf_zv_neg; apply Z.compare_gt_iff; lia.
    + cbn [sf_zv]. rewrite M. destruct (ex ?= ey); reflexivity.
Qed.

Lemma SFltb_exact x y : sf_fin x -> sf_fin y -> SFltb x y = (sf_zv x <? sf_zv y).
Proof. intros. unfold SFltb. rewrite SFcompare_exact by auto. unfold Z.ltb. destruct (_ ?= _); reflexivity. Qed.
Lemma SFeqb_exact x y : sf_fin x -> sf_fin y -> SFeqb x y = (sf_zv x =? sf_zv y).
Proof.
  intros. unfold SFeqb. rewrite SFcompare_exact by auto.
  destruct (Z.compare_spec (sf_zv x) (sf_zv y)); symmetry; [apply Z.eqb_eq|apply Z.eqb_neq|apply Z.eqb_neq]; lia.
Qed.

(** ** The aligned integers of F64.v are the values over a common factor *)
Definition dy_ok (d : Z * Z) : Prop := fst d = 0 \/ emin <= snd d <= emax.
Definition dy_val (d : Z * Z) : Z := if fst d =? 0 then 0 else fst d * 2 ^ (snd d - emin).

Lemma sf_dyadic x : sf_fin x -> exists d, dyadic x = Some d /\ dy_ok d /\ dy_val d = sf_zv x.
Proof.
  destruct x as [s|s| |s m e]; cbn [sf_fin]; try tauto.
  - intros _. exists (0, 0). repeat split. left; reflexivity.
  - intro H. apply valid_finite in H as (H & _). eexists; split; [reflexivity|].
    split; [right; cbn; lia|]. unfold dy_val. destruct s; reflexivity.
Qed.

Lemma fold_min_le l : forall acc, fold_left (fun acc d => if fst d =? 0 then acc else Z.min acc (snd d)) l acc <= acc.
Proof.
  induction l as [|d l IH]; intro acc; simpl; [lia|].
  eapply Z.le_trans; [apply IH|]. destruct (fst d =? 0); lia.
Qed.
Lemma fold_min_in l : forall acc d, In d l -> fst d <> 0 ->
  fold_left (fun acc d => if fst d =? 0 then acc else Z.min acc (snd d)) l acc <= snd d.
Proof.
  induction l as [|d' l IH]; intros acc d H N; [contradiction|]; destruct H as [->|H]; simpl.
  - eapply Z.le_trans; [apply fold_min_le|]. destruct (Z.eqb_spec (fst d) 0); lia.
  - apply IH; auto.
Qed.
Lemma fold_min_ge l : forall acc, emin <= acc -> (forall d, In d l -> dy_ok d) ->
  emin <= fold_left (fun acc d => if fst d =? 0 then acc else Z.min acc (snd d)) l acc.
Proof.
  induction l as [|d l IH]; intros acc H Hl; simpl; auto.
  apply IH; [|intros; apply Hl; right; auto].
  destruct (Z.eqb_spec (fst d) 0); auto.
  destruct (Hl d (or_introl eq_refl)); lia.
Qed.

Lemma align_spec l : (forall d, In d l -> dy_ok d) ->
  exists c, 0 < c /\ map dy_val l = map (fun z => z * c) (align emax l).
Proof.
  intro H. unfold align. set (e0 := min_exp emax l).
  assert (He0 : emin <= e0).
  { apply fold_min_ge; auto. unfold SpecFloat.emin. lia. }
  exists (2 ^ (e0 - emin)). split; [apply Z.pow_pos_nonneg; lia|].
  rewrite map_map. apply map_ext_in. intros d Hd. unfold dy_val.
  destruct (Z.eqb_spec (fst d) 0) as [Z0|N]; [lia|].
  assert (e0 <= snd d) by (apply fold_min_in; auto).
  rewrite Z.shiftl_mul_pow2 by lia. rewrite <- Z.mul_assoc, <- Z.pow_add_r by lia.
  do 2 f_equal. lia.
Qed.

Lemma all_some_dyadic l : Forall sf_fin l -> exists ds, all_some (map dyadic l) = Some ds /\
  (forall d, In d ds -> dy_ok d) /\ map dy_val ds = map sf_zv l.
Proof.
  induction 1 as [|x l Hx _ (ds & E1 & E2 & E3)].
  - exists []. repeat split. contradiction.
  - destruct (sf_dyadic x Hx) as (d & D1 & D2 & D3). exists (d :: ds).
    simpl. rewrite D1, E1. split; auto. split; [intros d' [->|?]; auto|]. simpl; congruence.
Qed.

Lemma cmp0_scale a k : 0 < k -> (a * k ?= 0) = (a ?= 0).
Proof.
  intro H. destruct (Z.compare_spec a 0).
  - subst. reflexivity.
  - apply Z.compare_lt_iff. nia.
  - apply Z.compare_gt_iff. nia.
Qed.

Lemma sf_orient2d_exact ax ay bx by_ cx cy :
  sf_fin ax -> sf_fin ay -> sf_fin bx -> sf_fin by_ -> sf_fin cx -> sf_fin cy ->
  sf_orient2d emax ax ay bx by_ cx cy =
  (orient_det (sf_zv ax) (sf_zv ay) (sf_zv bx) (sf_zv by_) (sf_zv cx) (sf_zv cy) ?= 0).
Proof.
  intros. unfold sf_orient2d.
  destruct (all_some_dyadic [ax; ay; bx; by_; cx; cy]) as (ds & E1 & E2 & E3); [repeat constructor; auto|].
  rewrite E1. destruct (align_spec ds E2) as (c & C1 & C2). rewrite E3 in C2.
  destruct (align emax ds) as [|z0 [|z1 [|z2 [|z3 [|z4 [|z5 [|]]]]]]]; simpl in C2; try discriminate.
  injection C2 as -> -> -> -> -> ->.
  rewrite <- (cmp0_scale _ (c * c)) by nia. f_equal. unfold orient_det. ring.
Qed.

Lemma sf_incircle_exact ax ay bx by_ cx cy dx dy :
  sf_fin ax -> sf_fin ay -> sf_fin bx -> sf_fin by_ -> sf_fin cx -> sf_fin cy -> sf_fin dx -> sf_fin dy ->
  sf_incircle emax ax ay bx by_ cx cy dx dy =
  (incircle_det (sf_zv ax) (sf_zv ay) (sf_zv bx) (sf_zv by_) (sf_zv cx) (sf_zv cy) (sf_zv dx) (sf_zv dy) ?= 0).
Proof.
  intros. unfold sf_incircle.
  destruct (all_some_dyadic [ax; ay; bx; by_; cx; cy; dx; dy]) as (ds & E1 & E2 & E3); [repeat constructor; auto|].
  rewrite E1. destruct (align_spec ds E2) as (c & C1 & C2). rewrite E3 in C2.
  destruct (align emax ds) as [|z0 [|z1 [|z2 [|z3 [|z4 [|z5 [|z6 [|z7 [|]]]]]]]]]; simpl in C2; try discriminate.
  injection C2 as -> -> -> -> -> -> -> ->.
  rewrite <- (cmp0_scale _ (c * c * (c * c))) by nia. f_equal. unfold incircle_det. ring.
Qed.
End Float.

#[global] Instance F64_exact : Exact F64.
Proof.
  refine (mkExact F64 (sf_fin 53 1024) (sf_zv 53 1024) _ _ _ _).
  - apply SFltb_exact; reflexivity.
  - apply SFeqb_exact; reflexivity.
  - apply sf_orient2d_exact; reflexivity.
  - apply sf_incircle_exact; reflexivity.
Defined.

#[global] Instance F32_exact : Exact F32.
Proof.
  refine (mkExact F32 (sf_fin 24 128) (sf_zv 24 128) _ _ _ _).
  - apply SFltb_exact; reflexivity.
  - apply SFeqb_exact; reflexivity.
  - apply sf_orient2d_exact; reflexivity.
  - apply sf_incircle_exact; reflexivity.
Defined.
