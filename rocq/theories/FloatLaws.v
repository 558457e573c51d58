(** * FloatLaws: the few laws of IEEE comparison used for arbitrary values
    (NaN, infinities and non-canonical encodings included) *)
From Coq Require Import ZArith Bool List.
From Coq.Floats Require Import SpecFloat.
From Verif Require Import Base Num F64 BuilderSpec History.

Lemma SFcompare_swap x y :
  SFcompare y x = match SFcompare x y with Some c => Some (CompOpp c) | None => None end.
Proof.
  destruct x as [sx|sx| |sx mx ex], y as [sy|sy| |sy my ey]; simpl;
    try destruct sx; try destruct sy; try reflexivity;
    rewrite (Z.compare_antisym ex ey); destruct (ex ?= ey)%Z; simpl; try reflexivity;
    rewrite (Pos.compare_cont_antisym); simpl; destruct (Pos.compare_cont Eq mx my); reflexivity.
Qed.
Lemma SFeqb_not_ltb x y : SFeqb x y = true -> SFltb y x = false.
Proof.
  unfold SFeqb, SFltb. rewrite (SFcompare_swap x y). destruct (SFcompare x y) as [[]|]; simpl; congruence.
Qed.
Lemma SFeqb_sym x y : SFeqb x y = SFeqb y x.
Proof. unfold SFeqb. rewrite (SFcompare_swap x y). destruct (SFcompare x y) as [[]|]; reflexivity. Qed.

Lemma F64_eq_not_lt : @eq_not_lt F64. Proof. exact SFeqb_not_ltb. Qed.
Lemma F32_eq_not_lt : @eq_not_lt F32. Proof. exact SFeqb_not_ltb. Qed.
Lemma F64_eq_sym : @eq_sym F64. Proof. exact SFeqb_sym. Qed.
Lemma F32_eq_sym : @eq_sym F32. Proof. exact SFeqb_sym. Qed.
