(** * PropsLow: which undefined behaviour can happen on f64 input, NaN and infinities included (C13)

    The sweep front starts with an artificial point whose key is not after that of any input point, so the
    unchecked index arithmetic of [locate_node] never underflows.  What remains of C13 (aliasing, and in release
    builds one out-of-range read) does happen, on the inputs shown. *)
From Coq Require Import List Arith Bool Lia ZArith Reals Lra.
From Coq.Floats Require Import SpecFloat.
From Flocq Require BinarySingleNaN.
From Verif Require Import Base Num Shape Utils Points Triangles Front Sweeper Cdt F64 Exact F64Exact Lists History SortSpec Spec PropsBuilder PropsTrace
  PropsSafe PropsRefuted F64Real IntF64 PropsFrame.
Import ListNotations.
Local Open Scope nat_scope.

(** a value an f64 variable can hold *)
Definition is_f64 (x : spec_float) : Prop := valid_binary 53 1024 x = true.
Definition f64_points (ps : list (@Point F64)) : Prop := forall p, In p ps -> is_f64 (px p) /\ is_f64 (py p).

Notation lt64 := (@f_lt F64).
Notation le64 := (@f_le F64).
Notation eq64 := (@f_eq F64).
(** not NaN, not an infinity *)
Lemma fin_or x : is_f64 x -> x = S754_nan \/ x = pinf \/ x = ninf \/ ffin x.
Proof. intro H. destruct x as [[]|[]| |s m e]; auto; right; right; right; exact H. Qed.

(** running minimum and maximum *)
Definition lo_ok (x : spec_float) : Prop := x = ninf \/ ffin x.
Definition hi_ok (x : spec_float) : Prop := x = pinf \/ ffin x.
Definition above (x y : spec_float) : Prop := x = S754_nan \/ le64 y x = true.
Definition below (x y : spec_float) : Prop := x = S754_nan \/ le64 x y = true.

Lemma le_refl_fin x : ffin x -> le64 x x = true.
Proof. intro F. apply fle_v; auto. apply Rle_refl. Qed.
Lemma le_trans64 x y z : is_f64 x -> is_f64 y -> is_f64 z -> le64 x y = true -> le64 y z = true -> le64 x z = true.
Proof.
  intros X Y Z H1 H2. destruct (fin_or x X) as [->|[->|[->|FX]]].
  - discriminate.
  - destruct y as [[]|[]| |[]]; try discriminate; destruct z as [[]|[]| |[]]; discriminate || reflexivity.
  - destruct y as [[]|[]| |[]]; try discriminate; destruct z as [[]|[]| |[]]; discriminate || reflexivity.
  - destruct (fin_or y Y) as [->|[->|[->|FY]]].
    + destruct x as [[]|[]| |[]]; discriminate.
    + destruct z as [[]|[]| |[]]; try discriminate. apply fle_pinf; auto.
    + destruct x as [[]|[]| |[]]; try discriminate; destruct FX.
    + destruct (fin_or z Z) as [->|[->|[->|FZ]]].
      * destruct y as [[]|[]| |[]]; discriminate.
      * apply fle_pinf; auto.
      * destruct y as [[]|[]| |[]]; try discriminate; destruct FY.
      * apply fle_v; auto. apply fle_v in H1; auto. apply fle_v in H2; auto. eapply Rle_trans; eauto.
Qed.
Lemma fin_f64 x : ffin x -> is_f64 x. Proof. destruct x as [[]|[]| |s m e]; intro F; try (destruct F; fail); exact F || reflexivity. Qed.
Lemma lo_f64 x : lo_ok x -> is_f64 x. Proof. intros [->|F]; [reflexivity|apply fin_f64; auto]. Qed.
Lemma hi_f64 x : hi_ok x -> is_f64 x. Proof. intros [->|F]; [reflexivity|apply fin_f64; auto]. Qed.
Lemma min_step m x : lo_ok m -> is_f64 x -> let r := @f_min F64 m x in lo_ok r /\ le64 r m = true /\ above x r.
Proof.
  intros L X. cbv zeta. unfold f_min. destruct (fin_or x X) as [->|[->|[->|FX]]].
  - replace (lt64 S754_nan m) with false by (destruct m as [[]|[]| |[]]; reflexivity).
    assert (E : eq64 m m = true /\ le64 m m = true). { destruct L as [->|F]; [split; reflexivity|]. split; [apply feq_v; auto|apply le_refl_fin; auto]. }
    rewrite (proj1 E). split; auto. split; [apply E|left; auto].
  - assert (Q : lt64 pinf m = false) by (destruct m as [[]|[]| |[]]; reflexivity). rewrite Q.
    assert (E : eq64 m m = true /\ le64 m m = true /\ le64 m pinf = true).
    { destruct L as [->|F]; [repeat split; reflexivity|]. split; [apply feq_v; auto|]. split; [apply le_refl_fin; auto|apply fle_pinf; auto]. }
    destruct E as (E1 & E2 & E3). rewrite E1. split; auto. split; [exact E2|right; exact E3].
  - destruct L as [->|F].
    + cbn. split; [left; auto|]. split; [reflexivity|right; reflexivity].
    + rewrite (proj2 (fle_ninf m F)). split; [left; auto|]. split; [apply fle_ninf; auto|right; reflexivity].
  - destruct L as [->|F].
    + replace (lt64 x ninf) with false by (destruct x as [[]|[]| |[]]; reflexivity). cbn. split; [left; auto|]. split; [reflexivity|right; apply fle_ninf; auto].
    + destruct (lt64 x m) eqn:C.
      * split; [right; auto|]. split; [unfold f_le; rewrite C; reflexivity|right; apply le_refl_fin; auto].
      * rewrite (proj2 (feq_v m m F F) eq_refl). split; [right; auto|]. split; [apply le_refl_fin; auto|]. right. apply fle_v; auto.
        apply Rnot_lt_le. intro G. apply flt_v in G; auto. rewrite G in C. discriminate.
Qed.
Lemma max_step m x : hi_ok m -> is_f64 x -> let r := @f_max F64 m x in hi_ok r /\ le64 m r = true /\ below x r.
Proof.
  intros L X. cbv zeta. unfold f_max. destruct (fin_or x X) as [->|[->|[->|FX]]].
  - replace (lt64 m S754_nan) with false by (destruct m as [[]|[]| |[]]; reflexivity).
    assert (E : eq64 m m = true /\ le64 m m = true). { destruct L as [->|F]; [split; reflexivity|]. split; [apply feq_v; auto|apply le_refl_fin; auto]. }
    rewrite (proj1 E). split; auto. split; [apply E|left; auto].
  - destruct L as [->|F].
    + cbn. split; [left; auto|]. split; [reflexivity|right; reflexivity].
    + rewrite (proj2 (fle_pinf m F)). split; [left; auto|]. split; [apply fle_pinf; auto|right; reflexivity].
  - assert (Q : lt64 m ninf = false) by (destruct m as [[]|[]| |[]]; reflexivity). rewrite Q.
    assert (E : eq64 m m = true /\ le64 m m = true /\ le64 ninf m = true).
    { destruct L as [->|F]; [repeat split; reflexivity|]. split; [apply feq_v; auto|]. split; [apply le_refl_fin; auto|apply fle_ninf; auto]. }
    destruct E as (E1 & E2 & E3). rewrite E1. split; auto. split; [exact E2|right; exact E3].
  - destruct L as [->|F].
    + replace (lt64 pinf x) with false by (destruct x as [[]|[]| |[]]; reflexivity). cbn. split; [left; auto|]. split; [reflexivity|right; apply fle_pinf; auto].
    + destruct (lt64 m x) eqn:C.
      * split; [right; auto|]. split; [unfold f_le; rewrite C; reflexivity|right; apply le_refl_fin; auto].
      * rewrite (proj2 (feq_v m m F F) eq_refl). split; [right; auto|]. split; [apply le_refl_fin; auto|]. right. apply fle_v; auto.
        apply Rnot_lt_le. intro G. apply flt_v in G; auto. rewrite G in C. discriminate.
Qed.
Lemma f64_B x : is_f64 x -> exists b : BinarySingleNaN.binary_float 53 1024, BinarySingleNaN.B2SF b = x.
Proof. intro H. exists (BinarySingleNaN.SF2B x H). apply BinarySingleNaN.B2SF_SF2B. Qed.
Lemma sub_f64 x y : is_f64 x -> is_f64 y -> is_f64 (@f_sub F64 x y).
Proof. intros X Y. apply f64_B in X as [a <-]. apply f64_B in Y as [b <-]. unfold is_f64. change (@f_sub F64) with (SFsub 53 1024). rewrite sub_equiv. apply BinarySingleNaN.valid_binary_B2SF. Qed.
Lemma add_f64 x y : is_f64 x -> is_f64 y -> is_f64 (@f_add F64 x y).
Proof. intros X Y. apply f64_B in X as [a <-]. apply f64_B in Y as [b <-]. unfold is_f64. change (@f_add F64) with (SFadd 53 1024). rewrite add_equiv. apply BinarySingleNaN.valid_binary_B2SF. Qed.
Lemma mul_f64 x y : is_f64 x -> is_f64 y -> is_f64 (@f_mul F64 x y).
Proof. intros X Y. apply f64_B in X as [a <-]. apply f64_B in Y as [b <-]. unfold is_f64. change (@f_mul F64) with (SFmul 53 1024). rewrite mul_equiv. apply BinarySingleNaN.valid_binary_B2SF. Qed.
Section Fold.
Variable g : @Point F64 -> spec_float.
Lemma fold_lo : forall ps m, lo_ok m -> (forall p, In p ps -> is_f64 (g p)) ->
  let r := fold_left (fun m p => @f_min F64 m (g p)) ps m in lo_ok r /\ le64 r m = true /\ forall p, In p ps -> above (g p) r.
Proof.
  induction ps as [|p ps IH]; intros m L H r.
  - split; auto. split; [|intros ? []]. destruct L as [E|F]; unfold r; cbn; [rewrite E; reflexivity|apply le_refl_fin; auto].
  - destruct (min_step m (g p) L (H p (or_introl eq_refl))) as (A1 & A2 & A3).
    destruct (IH _ A1 (fun q Hq => H q (or_intror Hq))) as (B1 & B2 & B3).
    split; [exact B1|]. split; [exact (le_trans64 r _ m (lo_f64 _ B1) (lo_f64 _ A1) (lo_f64 _ L) B2 A2)|].
    intros q [<-|Hq]; [|exact (B3 q Hq)]. destruct A3 as [A3|A3]; [left; auto|right].
    exact (le_trans64 r _ (g p) (lo_f64 _ B1) (lo_f64 _ A1) (H p (or_introl eq_refl)) B2 A3).
Qed.
Lemma fold_hi : forall ps m, hi_ok m -> (forall p, In p ps -> is_f64 (g p)) ->
  let r := fold_left (fun m p => @f_max F64 m (g p)) ps m in hi_ok r /\ le64 m r = true /\ forall p, In p ps -> below (g p) r.
Proof.
  induction ps as [|p ps IH]; intros m L H r.
  - split; auto. split; [|intros ? []]. destruct L as [E|F]; unfold r; cbn; [rewrite E; reflexivity|apply le_refl_fin; auto].
  - destruct (max_step m (g p) L (H p (or_introl eq_refl))) as (A1 & A2 & A3).
    destruct (IH _ A1 (fun q Hq => H q (or_intror Hq))) as (B1 & B2 & B3).
    split; [exact B1|]. split; [exact (le_trans64 m _ r (hi_f64 _ L) (hi_f64 _ A1) (hi_f64 _ B1) A2 B2)|].
    intros q [<-|Hq]; [|exact (B3 q Hq)]. destruct A3 as [A3|A3]; [left; auto|right].
    exact (le_trans64 (g p) _ r (H p (or_introl eq_refl)) (hi_f64 _ A1) (hi_f64 _ B1) A3 B2).
Qed.
(** the two ends of the box, widened: not NaN, and not inside *)
Lemma ends ps : (forall p, In p ps -> is_f64 (g p)) ->
  let hi := fold_left (fun m p => @f_max F64 m (g p)) ps (@f_MIN F64) in
  let lo := fold_left (fun m p => @f_min F64 m (g p)) ps (@f_MAX F64) in
  let d := @f_mul F64 (@f_sub F64 hi lo) (@f_c03 F64) in
  (forall p, In p ps -> lt64 (g p) (@f_sub F64 lo d) = false) /\
  (lt64 (@f_add F64 hi d) (@f_sub F64 lo d) = false \/ (forall p, In p ps -> g p = S754_nan)).
Proof.
  intros H hi lo d.
  destruct (fold_lo ps (@f_MAX F64) (or_intror (proj1 v_MAX0)) H) as (L1 & L2 & L3). fold lo in L1, L2, L3.
  destruct (fold_hi ps (@f_MIN F64) (or_intror (proj1 (proj2 (proj2 v_MAX0)))) H) as (H1 & H2 & H3). fold hi in H1, H2, H3.
  assert (C : (forall p, In p ps -> g p = S754_nan) \/ exists p, In p ps /\ g p <> S754_nan).
  { clear. induction ps as [|p ps [IH|(q & Q1 & Q2)]]; [left; intros ? []| |right; exists q; split; [right; auto|auto]].
    destruct (g p) eqn:E; [right; exists p; split; [left; auto|congruence]|right; exists p; split; [left; auto|congruence]| |right; exists p; split; [left; auto|congruence]].
    left. intros q [<-|Hq]; auto. }
  assert (NX : forall x, lt64 x ninf = false) by (intros [[]|[]| |[]]; reflexivity).
  assert (PX : forall x, lt64 pinf x = false) by (intros [[]|[]| |[]]; reflexivity).
  destruct C as [C|(p0 & P0 & PN)].
  { split; [|right; auto]. intros p Hp. rewrite (C p Hp). destruct (f_sub lo d) as [[]|[]| |[]]; reflexivity. }
  assert (LH : le64 lo hi = true).
  { destruct (L3 p0 P0) as [Q|Q]; [contradiction|]. destruct (H3 p0 P0) as [Q'|Q']; [contradiction|].
    eapply le_trans64; [| | |exact Q|exact Q']; [apply lo_f64|apply H|apply hi_f64]; auto. }
  destruct L1 as [L1|L1].
  { assert (D : f_sub lo d = ninf).
    { assert (d = pinf) as ->. { unfold d. rewrite L1. destruct H1 as [->|H1]; [reflexivity|]. destruct hi as [[]|[]| |[]]; solve [reflexivity|exfalso; exact H1]. } rewrite L1. reflexivity. }
    rewrite D. split; [auto|left; auto]. }
  destruct H1 as [H1|H1].
  { assert (D : d = pinf). { unfold d. rewrite H1. destruct lo as [[]|[]| |[]]; solve [reflexivity|exfalso; exact L1]. }
    assert (D2 : f_sub lo d = ninf). { rewrite D. destruct lo as [[]|[]| |[]]; solve [reflexivity|exfalso; exact L1]. }
    rewrite D2. split; [auto|left; auto]. }
  apply fle_v in LH; auto.
  assert (NL : forall x y, is_f64 x -> is_f64 y -> le64 y x = true -> lt64 x y = false).
  { intros x y X Y Q. destruct (fin_or x X) as [->|[->|[->|FX]]].
    - destruct y as [[]|[]| |[]]; reflexivity.
    - apply PX.
    - destruct y as [[]|[]| |[]]; discriminate || reflexivity.
    - destruct (fin_or y Y) as [->|[->|[->|FY]]].
      + destruct x as [[]|[]| |[]]; reflexivity.
      + destruct x as [[]|[]| |[]]; try discriminate; destruct FX.
      + apply NX.
      + destruct (lt64 x y) eqn:G; auto. apply flt_v in G; auto. apply fle_v in Q; auto. exfalso. apply (Rlt_irrefl (v64 x)). eapply Rlt_le_trans; eauto. }
  assert (FS : is_f64 (f_sub lo d) /\ is_f64 (f_add hi d)).
  { assert (FD : is_f64 d). { apply mul_f64; [apply sub_f64; apply fin_f64; auto|reflexivity]. } split; [apply sub_f64|apply add_f64]; auto; apply fin_f64; auto. }
  split.
  - intros p Hp. destruct (L3 p Hp) as [Q|Q]; [rewrite Q; destruct (f_sub lo d) as [[]|[]| |[]]; reflexivity|].
    destruct (H3 p Hp) as [Q'|Q']; [rewrite Q'; destruct (f_sub lo d) as [[]|[]| |[]]; reflexivity|].
    assert (FP : ffin (g p)). { destruct (fin_or _ (H p Hp)) as [E|[E|[E|FP]]]; auto; exfalso; rewrite E in *.
      - destruct lo as [[]|[]| |[]]; discriminate.
      - destruct hi as [[]|[]| |[]]; try discriminate; destruct H1.
      - destruct lo as [[]|[]| |[]]; try discriminate; destruct L1. }
    apply fle_v in Q; auto. apply fle_v in Q'; auto.
    apply NL; [apply H; auto|apply FS|]. apply (side_le lo hi (g p) L1 H1 FP (conj Q Q')).
  - left. apply NL; try apply FS. destruct (side_le lo hi lo L1 H1 L1 (conj (Rle_refl _) LH)) as [A1 A2].
    fold d in A1, A2. eapply le_trans64; [apply FS|apply fin_f64; exact L1|apply FS|exact A1|exact A2].
Qed.
End Fold.

Lemma key_low (a b : @Point F64) : lt64 (px b) (px a) = false -> lt64 (py b) (py a) = false -> key_cmp a b <> Gt.
Proof.
  intros H1 H2. unfold key_cmp, key_partial_cmp, f_partial_cmp. rewrite H1, H2.
  destruct (lt64 (px a) (px b)); [discriminate|]. destruct (lt64 (py a) (py b)), (eq64 (px a) (px b)), (eq64 (py a) (py b)); discriminate.
Qed.
Lemma head_low ps p : f64_points ps -> In p ps -> key_cmp (head_point ps) p <> Gt.
Proof.
  intros H Hp. apply key_low.
  - apply (proj1 (ends px ps (fun q Hq => proj1 (H q Hq)))); auto.
  - apply (proj1 (ends py ps (fun q Hq => proj2 (H q Hq)))); auto.
Qed.
Lemma tail_low ps p : f64_points ps -> In p ps -> key_cmp (head_point ps) (tail_point ps) = Gt -> key_cmp (tail_point ps) p <> Gt.
Proof.
  intros H Hp G. apply key_low.
  - destruct (proj2 (ends px ps (fun q Hq => proj1 (H q Hq)))) as [L|L].
    + exfalso. revert G. apply key_low; [exact L|]. unfold head_point, tail_point. cbn [py]. destruct (f_sub (ymin_of ps) _) as [[]|[]| |[] m e]; try reflexivity; cbn;
        rewrite Z.compare_refl, Pos.compare_cont_refl; reflexivity.
    + rewrite (L p Hp). destruct (px (tail_point ps)) as [[]|[]| |[]]; reflexivity.
  - apply (proj1 (ends py ps (fun q Hq => proj2 (H q Hq)))); auto.
Qed.

(** the first node of the first front *)
Lemma run_init_first {A : Arith} pts es s e : run_init (points_new pts es) = Done s -> nth_error (nodes (s_front s)) 0 = Some e ->
  en_key e = head_point pts \/ (en_key e = tail_point pts /\ key_cmp (head_point pts) (tail_point pts) = Gt) \/
  (exists q, In q pts /\ key_cmp (head_point pts) q = Gt).
Proof.
  unfold run_init, get_id_by_y. intros H E.
  destruct (ps_y_sorted (points_new pts es)) as [|lowest order] eqn:Y; [discriminate|]. cbn [nth_error unwrap rbind ts_insert app length] in H.
  unfold ts_get, get_unchecked in H. cbn [nth_error unwrap rbind] in H.
  assert (Lw : lowest < length pts).
  { assert (In lowest (seq 0 (length pts))) as I by (apply (Permutation.Permutation_in _ (y_sorted_perm pts es)); rewrite Y; left; auto).
    apply in_seq in I. lia. }
  unfold front_new, get_point in H. cbn [t_points tri_new a0 a1 a2 ps_points ps_head ps_tail points_new] in H.
  rewrite (nth_error_app2 pts _ (n := length pts)) in H by lia. rewrite (nth_error_app2 pts _ (n := S (length pts))) in H by lia.
  rewrite Nat.sub_diag in H. replace (S (length pts) - length pts) with 1 in H by lia. cbn [nth_error] in H.
  rewrite (nth_error_app1 pts _ Lw) in H. destruct (nth_error pts lowest) as [pl|] eqn:Pl; [|discriminate]. apply nth_error_In in Pl.
  cbn [unwrap rbind] in H. injection H as <-. cbn [s_front nodes] in E.
  destruct (key_cmp (head_point pts) pl) eqn:C.
  3:{ right; right. eauto. }
  all: cbn [key_insert en_key] in E; destruct (key_cmp (head_point pts) (tail_point pts)) eqn:C2; cbn [nth_error] in E; injection E as <-; cbn [en_key]; auto;
    right; left; split; auto.
Qed.
Lemma f64_starts_low (pts : list (@Point F64)) : f64_points pts -> starts_low pts.
Proof.
  intros H es s e p Ri E Hp. destruct (run_init_first pts es s e Ri E) as [->|[[-> G]|(q & Q & G)]].
  - apply head_low; auto.
  - apply tail_low; auto.
  - exfalso. revert G. apply head_low; auto.
Qed.

(** ** C13 on f64

    Every undefined behaviour a run on f64 coordinates (NaN and infinities included) can show is one of two:
    two of the references of the six-way split borrow are the same triangle (any build), or, without debug
    assertions, flip_edge_event reads the triangle across an outer edge. *)
Theorem C13_f64_undefined_behaviour_is_one_of_two_partial : forall PD dbg fuel (src : @source F64 PD) calls (b : Builder PD) r cbs,
  builder_of PD src calls = Done b -> f64_points (history_points PD src calls) -> observed dbg fuel (build PD b) = (r, cbs) ->
  (forall u, r = Ub u -> u = U_alias \/ (dbg = false /\ u = U_flip_across)) /\
  Forall (in_range (length (history_points PD src calls))) cbs.
Proof.
  intros PD dbg fuel src calls b r cbs B FP O.
  destruct (C13_unchecked_in_range_partial PD dbg fuel src calls b r cbs B O) as [H R]. split; auto.
  intros u E. destruct (H u E) as [->|[D [->|[-> N]]]]; auto. exfalso. apply N, f64_starts_low, FP.
Qed.

(** Both happen: the first on a valid polygon (C30_no_undefined_behaviour_refuted); the second, an out-of-range
    read through get_unchecked, on this self-intersecting polygon with integer corners. *)
Definition C13_claim : Prop := forall dbg fuel (poly : list zpt) u, triangulate64 dbg fuel poly [] [] <> Ub u.
Definition w_across : list zpt := [(3, 6); (5, 7); (1, 3); (4, 2); (7, 11); (2, 4)]%Z.
Theorem C13_out_of_range_read_refuted : triangulate64 false 100 w_across [] [] = Ub U_flip_across /\ ~ C13_claim.
Proof.
  assert (R : erase (triangulate64 false 100 w_across [] []) = Ub U_flip_across) by (vm_compute; reflexivity).
  assert (G : triangulate64 false 100 w_across [] [] = Ub U_flip_across).
  { destruct (triangulate64 false 100 w_across [] []); try discriminate. cbn in R. injection R as ->. reflexivity. }
  split; [exact G|]. intro C. exact (C _ _ _ _ G).
Qed.

(** Non-vacuity: coordinates with a NaN and both infinities are f64 values; the run on them panics (or not) but
    is covered. *)
Definition odd_points : list (@Point F64) :=
  [@mkPoint F64 S754_nan (S754_infinity true); @mkPoint F64 (S754_infinity false) S754_nan; @mkPoint F64 (S754_zero true) (@f_eps F64); @mkPoint F64 (@f_MAX F64) (@f_MIN F64)].
Example odd_points_f64 : f64_points odd_points.
Proof. intros p H. cbn in H. repeat destruct H as [<-|H]; try contradiction; split; reflexivity. Qed.
Example odd_points_low : starts_low odd_points.
Proof. apply f64_starts_low, odd_points_f64. Qed.
Print Assumptions C13_f64_undefined_behaviour_is_one_of_two_partial.
Print Assumptions C13_out_of_range_read_refuted.
