(** * Cone: points seen from an apex, and corridors of edges in front of it

    [orient e a b > 0]: b is counter-clockwise of a as seen from e (by less than a half turn). *)
From Coq Require Import ZArith Lia Bool Psatz.
From Verif Require Import F64 Exact Geom.
Local Open Scope Z_scope.

(** a b seen from e in the coordinates of the basis u, v *)
Lemma cramer e u v w z : orient e u v * orient e w z = orient e w v * orient e u z + orient e u w * orient e v z.
Proof. zpts. ring. Qed.

Lemma cramer2 e p1 p2 w d : orient e p1 p2 * orient e w d = orient e w p1 * - orient e p2 d + orient e w p2 * orient e p1 d.
Proof. zpts. ring. Qed.
Lemma cramer3 e p1 p2 w d : orient e p1 p2 * - orient e w d = - orient e w p1 * - orient e p2 d + - orient e w p2 * orient e p1 d.
Proof. zpts. ring. Qed.
Lemma cramer4 e u v op t : orient e u v * - orient e op t = orient e u op * - orient e v t + orient e op v * - orient e u t.
Proof. zpts. ring. Qed.
Lemma cramer5 e p1 p2 op v : orient e p1 p2 * - orient e op v = orient e op p1 * - orient e v p2 + - orient e op p2 * - orient e v p1.
Proof. zpts. ring. Qed.
Lemma cramer6 e p1 p2 op u : orient e p1 p2 * - orient e u op = orient e op p1 * orient e u p2 + - orient e op p2 * orient e u p1.
Proof. zpts. ring. Qed.
Lemma orient_apex e u v op : orient u v op = orient e u v - orient e u op - orient e op v.
Proof. zpts. ring. Qed.

Lemma zpt_dec (a b : zpt) : a = b \/ a <> b.
Proof. destruct a as [x y], b as [x' y']; destruct (Z.eq_dec x x'), (Z.eq_dec y y'); [left; congruence|right; congruence..]. Qed.
Lemma pos_of a b c : 0 < a -> a * b = c -> 0 < c -> 0 < b.
Proof. intros. subst. apply Z.mul_pos_cancel_l with a; auto. Qed.
Lemma neg_of a b c : 0 < a -> a * b = c -> c < 0 -> b < 0.
Proof. intros H1 H2 H3. assert (0 < - b); [|lia]. apply (pos_of a (- b) (- c)); lia. Qed.
Lemma comb_pos a b c d f g : a * b = c * d + f * g -> 0 < a -> 0 < c -> 0 < d -> 0 < f -> 0 < g -> 0 < b.
Proof. intros H H1 H2 H3 H4 H5. apply (pos_of a b (c * d + f * g)); auto. pose proof (Z.mul_pos_pos c d H2 H3). pose proof (Z.mul_pos_pos f g H4 H5). lia. Qed.
Lemma comb_le a b c d f g : a * b = c * d + f * g -> 0 < a -> 0 < b -> c <= 0 -> 0 < d -> 0 < f -> g < 0 -> False.
Proof. intros H H1 H2 H3 H4 H5 H6. pose proof (Z.mul_pos_pos a b H1 H2). pose proof (Z.mul_nonpos_nonneg c d H3 ltac:(lia)). pose proof (Z.mul_pos_neg f g H5 H6). lia. Qed.

(** x strictly inside the cone from e spanned by p1 (on its right) and p2 (on its left) *)
Definition in_cone (e p1 p2 x : zpt) : Prop := 0 < orient e p1 x /\ orient e p2 x < 0.
(** w is p1, or outside the cone on the right of it *)
Definition Rt (e p1 p2 w : zpt) : Prop := w = p1 \/ (0 < orient e w p1 /\ 0 < orient e w p2).
Definition Lf (e p1 p2 w : zpt) : Prop := w = p2 \/ (orient e w p1 < 0 /\ orient e w p2 < 0).

Lemma Rt_p2 e p1 p2 w : 0 < orient e p1 p2 -> Rt e p1 p2 w -> 0 < orient e w p2.
Proof. intros H [->|H']; tauto. Qed.
Lemma Lf_p1 e p1 p2 w : 0 < orient e p1 p2 -> Lf e p1 p2 w -> orient e w p1 < 0.
Proof. intros H [->|H']; [|tauto]. rewrite orient_swap'. lia. Qed.
Lemma Rt_Lf e p1 p2 w : 0 < orient e p1 p2 -> Rt e p1 p2 w -> Lf e p1 p2 w -> False.
Proof. intros H R [->|L]; [apply Rt_p2 in R; auto; rewrite (proj2 (proj2 (orient_diag _ _))) in R; lia|apply Rt_p2 in R; auto; lia]. Qed.
Lemma Rt_apex e p1 p2 : 0 < orient e p1 p2 -> ~ Rt e p1 p2 e.
Proof. intros H R. apply Rt_p2 in R; auto. rewrite (proj1 (orient_diag _ _)) in R. lia. Qed.
Lemma Lf_apex e p1 p2 : 0 < orient e p1 p2 -> ~ Lf e p1 p2 e.
Proof. intros H R. apply Lf_p1 in R; auto. rewrite (proj1 (orient_diag _ _)) in R. lia. Qed.
Lemma Rt_cone e p1 p2 w d : 0 < orient e p1 p2 -> in_cone e p1 p2 d -> Rt e p1 p2 w -> 0 < orient e w d.
Proof.
  intros H [D1 D2] [->|[W1 W2]]; auto.
  pose proof (cramer2 e p1 p2 w d) as C.
  eapply comb_pos; eauto; lia.
Qed.
Lemma Lf_cone e p1 p2 w d : 0 < orient e p1 p2 -> in_cone e p1 p2 d -> Lf e p1 p2 w -> orient e w d < 0.
Proof.
  intros H [D1 D2] [->|[W1 W2]]; auto.
  pose proof (cramer3 e p1 p2 w d) as C.
  assert (0 < - orient e w d); [|lia]. eapply comb_pos; eauto; lia.
Qed.
Lemma cone_not_Rt e p1 p2 d : 0 < orient e p1 p2 -> in_cone e p1 p2 d -> ~ Rt e p1 p2 d.
Proof. intros H D R. apply (Rt_cone _ _ _ _ _ H D) in R. rewrite (proj2 (proj2 (orient_diag _ _))) in R. lia. Qed.
Lemma cone_not_Lf e p1 p2 d : 0 < orient e p1 p2 -> in_cone e p1 p2 d -> ~ Lf e p1 p2 d.
Proof. intros H D R. apply (Lf_cone _ _ _ _ _ H D) in R. rewrite (proj2 (proj2 (orient_diag _ _))) in R. lia. Qed.

(** one step of a corridor: the edge (u, v), u on the right and v on the left, and a point op beyond it, outside the cone *)
Section Step.
Variables e p1 p2 t u v op : zpt.
Hypothesis H12 : 0 < orient e p1 p2.
Hypothesis T : in_cone e p1 p2 t.
Hypothesis RU : Rt e p1 p2 u.
Hypothesis LV : Lf e p1 p2 v.
Hypothesis UV : 0 < orient e u v.
Hypothesis FAR : orient u v op < 0.
Hypothesis OUT : ~ in_cone e p1 p2 op.
Hypothesis G1 : op <> p1 -> orient e op p1 <> 0.
Hypothesis G2 : op <> p2 -> orient e op p2 <> 0.

Lemma far_sum : orient e u v < orient e u op + orient e op v.
Proof using FAR. pose proof (orient_apex e u v op). lia. Qed.

Lemma step_right : 0 < orient e op t -> Rt e p1 p2 op /\ 0 < orient e op v.
Proof using H12 T RU LV UV FAR OUT G1 G2.
  intro O. pose proof far_sum as FS. destruct T as [T1 T2].
  assert (U2 := Rt_p2 _ _ _ _ H12 RU). assert (V1 := Lf_p1 _ _ _ _ H12 LV).
  assert (UT := Rt_cone _ _ _ _ _ H12 T RU). assert (VT := Lf_cone _ _ _ _ _ H12 T LV).
  assert (OV : 0 < orient e op v).
  { destruct (Z_lt_le_dec 0 (orient e op v)) as [|Q]; auto. exfalso. pose proof (cramer e u v op t) as C. eapply (comb_le _ _ _ _ _ _ C); eauto; lia. }
  split; auto.
  assert (D : op = p1 \/ op <> p1) by (apply zpt_dec).
  destruct D as [D|D]; [left; auto|right]. specialize (G1 D).
  assert (D2 : op <> p2). { intros Q. subst op. lia. } specialize (G2 D2).
  assert (O1 : 0 < orient e op p1).
  { destruct (Z_lt_le_dec 0 (orient e op p1)) as [|Q]; auto. exfalso.
    assert (P1O : 0 < orient e p1 op) by (rewrite orient_swap'; lia).
    assert (O2 : orient e op p2 < 0). { destruct (Z_lt_le_dec (orient e op p2) 0); auto. exfalso. apply OUT. split; auto. rewrite orient_swap'. lia. }
    pose proof (cramer3 e p1 p2 op t) as C.
    assert (0 < - orient e op t); [|lia]. eapply comb_pos; eauto; lia. }
  split; auto.
  destruct (Z_lt_le_dec 0 (orient e op p2)) as [|Q]; auto. exfalso. assert (O2 : orient e op p2 < 0) by lia.
  destruct LV as [->|[L1 L2]]; [lia|].
  pose proof (cramer5 e p1 p2 op v) as C.
  assert (0 < - orient e op v); [|lia]. eapply comb_pos; eauto; lia.
Qed.
Lemma step_left : orient e op t < 0 -> Lf e p1 p2 op /\ 0 < orient e u op.
Proof using H12 T RU LV UV FAR OUT G1 G2.
  intro O. pose proof far_sum as FS. destruct T as [T1 T2].
  assert (U2 := Rt_p2 _ _ _ _ H12 RU). assert (V1 := Lf_p1 _ _ _ _ H12 LV).
  assert (UT := Rt_cone _ _ _ _ _ H12 T RU). assert (VT := Lf_cone _ _ _ _ _ H12 T LV).
  assert (UO : 0 < orient e u op).
  { destruct (Z_lt_le_dec 0 (orient e u op)) as [|Q]; auto. exfalso. pose proof (cramer4 e u v op t) as C. eapply (comb_le _ _ _ _ _ _ C); eauto; lia. }
  split; auto.
  assert (D : op = p2 \/ op <> p2) by (apply zpt_dec).
  destruct D as [D|D]; [left; auto|right]. specialize (G2 D).
  assert (D2 : op <> p1). { intros Q. subst op. lia. } specialize (G1 D2).
  assert (O2 : orient e op p2 < 0).
  { destruct (Z_lt_le_dec (orient e op p2) 0) as [|Q]; auto. exfalso. 
    assert (O1 : 0 < orient e op p1). { destruct (Z_lt_le_dec 0 (orient e op p1)); auto. exfalso. apply OUT. split; rewrite orient_swap'; lia. }
    pose proof (cramer2 e p1 p2 op t) as C.
    assert (O2 : 0 < orient e op p2) by lia. assert (0 < orient e op t); [|lia]. eapply comb_pos; eauto; lia. }
  split; auto.
  destruct (Z_lt_le_dec (orient e op p1) 0) as [|Q]; auto. exfalso. assert (O1 : 0 < orient e op p1) by lia.
  destruct RU as [->|[L1 L2]]; [rewrite orient_swap' in UO; lia|].
  pose proof (cramer6 e p1 p2 op u) as C.
  assert (0 < - orient e u op); [|lia]. eapply comb_pos; eauto; lia.
Qed.
End Step.

(** proper crossing of two segments *)
Definition pcross (x y p q : zpt) : Prop := orient x y p * orient x y q < 0 /\ orient p q x * orient p q y < 0.
Lemma pcross_swap x y p q : pcross x y p q -> pcross y x p q.
Proof. unfold pcross. rewrite (orient_swap x y p), (orient_swap x y q). intros [H1 H2]. split; lia. Qed.
Lemma pcross_swap' x y p q : pcross x y p q -> pcross x y q p.
Proof. unfold pcross. rewrite (orient_swap p q x), (orient_swap p q y). intros [H1 H2]. split; lia. Qed.
Lemma pcross_comm x y p q : pcross x y p q -> pcross p q x y.
Proof. unfold pcross. tauto. Qed.
Lemma pcross_share x y q : ~ pcross x y x q /\ ~ pcross x y y q /\ ~ pcross x y q x /\ ~ pcross x y q y.
Proof.
  unfold pcross. repeat split; intros [H1 _]; revert H1; rewrite ?(proj1 (proj2 (orient_diag _ _))), ?(proj2 (proj2 (orient_diag _ _))); lia.
Qed.
Lemma pcross_dec x y p q : {pcross x y p q} + {~ pcross x y p q}.
Proof. unfold pcross. destruct (Z_lt_dec (orient x y p * orient x y q) 0), (Z_lt_dec (orient p q x * orient p q y) 0); tauto. Qed.
(** a segment leaving e through the opposite edge of a triangle, ending beyond it *)
Lemma cone_pcross e x y t : in_cone e x y t -> 0 < orient e x y -> orient x y t < 0 -> pcross x y t e.
Proof.
  intros [H1 H2] H3 H4. unfold pcross. rewrite (orient_rot e x y), (orient_rot' e x t), (orient_rot' e y t).
  split; [apply Z.mul_neg_pos; auto|apply Z.mul_pos_neg; auto].
Qed.
