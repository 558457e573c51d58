(** * PropsUnique: C48, the result depends on the region and not on how it is described

    Two inputs with the same points, in any order, whose contours are the same closed polygons, each starting
    anywhere and running in either direction, the holes in any order.  No four points on a circle. *)
From Coq Require Import List Arith Bool Lia ZArith Permutation.
From Coq.Floats Require Import SpecFloat.
From Verif Require Import Base Num Shape ShapeSpec Utils Points Triangles Front Sweeper Cdt F64 Lists BuilderSpec History SortSpec Monad Traverse TraceSpec Grow
  Exact F64Exact FloatLaws Spec PropsBuilder PropsTrace PropsSafe FrontSpec Geom Mesh Setup Good Init Winding CoverRun Stokes Region PropsMesh PropsCover PropsMarks PropsRegion FillTotal Local PropsTotal PropsCup PropsTri F64Real IntSpec IntF64 IntRun IntHyp PropsInt PropsCdt PropsCdtInt PropsIntEx PropsCdtEx PropsOutcome CountAll PropsCount Unique.
Import ListNotations.
Local Open Scope nat_scope.

(** the same closed polygon: started elsewhere, perhaps in the other direction *)
Definition same_loop (l l' : list zpt) : Prop := exists a b, l = a ++ b /\ (l' = b ++ a \/ l' = rev (b ++ a)).
Definition loop_of (zs : list zpt) (c : list nat) : list zpt := map (zat zs) c.
Definition same_holes (H H' : list (list zpt)) : Prop := (forall h, In h H -> exists h', In h' H' /\ same_loop h h') /\ (forall h', In h' H' -> exists h, In h H /\ same_loop h h').
Definition same_description (zs1 : list zpt) (poly1 : list nat) (holes1 : list (list nat)) (zs2 : list zpt) (poly2 : list nat) (holes2 : list (list nat)) : Prop :=
  Permutation zs1 zs2 /\ same_loop (loop_of zs1 poly1) (loop_of zs2 poly2) /\ same_holes (map (loop_of zs1) holes1) (map (loop_of zs2) holes2).
(** the same triangles, listed in any order and from any of their corners *)
Definition same_triangles (zs1 : list zpt) (ids1 : list nat) (zs2 : list zpt) (ids2 : list nat) : Prop :=
  (forall a b c, In (a, b, c) (triples ids1) -> exists d e f, In (d, e, f) (triples ids2) /\ same_triangle (zat zs1 a) (zat zs1 b) (zat zs1 c) (zat zs2 d) (zat zs2 e) (zat zs2 f)) /\
  (forall d e f, In (d, e, f) (triples ids2) -> exists a b c, In (a, b, c) (triples ids1) /\ same_triangle (zat zs2 d) (zat zs2 e) (zat zs2 f) (zat zs1 a) (zat zs1 b) (zat zs1 c)).

(** ** loops *)
Definition swp (e : zpt * zpt) : zpt * zpt := (snd e, fst e).
Lemma combine_swap {X} (l l' : list X) : map (fun e => (snd e, fst e)) (combine l l') = combine l' l.
Proof. revert l'. induction l as [|x l IH]; intros [|y l']; cbn [combine map]; auto. f_equal. apply IH. Qed.
Lemma combine_app2 {X Y} (a a' : list X) (b b' : list Y) : length a = length b -> combine (a ++ a') (b ++ b') = combine a b ++ combine a' b'.
Proof. revert b. induction a as [|x a IH]; intros [|y b] H; cbn in *; try discriminate; auto. f_equal. apply IH. lia. Qed.
Lemma combine_rev {X Y} (l : list X) (l' : list Y) : length l = length l' -> rev (combine l l') = combine (rev l) (rev l').
Proof.
  revert l'. induction l as [|x l IH]; intros [|y l'] H; cbn in *; try discriminate; auto. rewrite IH by lia. rewrite combine_app2 by (rewrite !rev_length; lia). reflexivity.
Qed.
Lemma cyc_rev (l : list zpt) : Permutation (Stokes.cyc (rev l)) (map swp (Stokes.cyc l)).
Proof.
  destruct l as [|a l]; [constructor|]. cbn [rev]. etransitivity; [apply cyc_rot|]. cbn [app].
  etransitivity; [|symmetry; apply Permutation_rev]. unfold Stokes.cyc. unfold swp. rewrite combine_swap.
  rewrite combine_rev by (rewrite app_length; cbn; lia). rewrite rev_app_distr. cbn [rev app]. reflexivity.
Qed.
Lemma same_loop_sym l l' : same_loop l l' -> same_loop l' l.
Proof.
  intros (a & b & -> & [->| ->]); [exists b, a; auto|]. rewrite rev_app_distr. exists (rev a), (rev b). split; auto. right. rewrite rev_app_distr, !rev_involutive. reflexivity.
Qed.
Lemma same_loop_edge l l' x y : same_loop l l' -> In (x, y) (Stokes.cyc l) -> In (x, y) (Stokes.cyc l') \/ In (y, x) (Stokes.cyc l').
Proof.
  intros (a & b & -> & [->| ->]) H.
  - left. eapply Permutation_in; [apply cyc_rot|exact H].
  - right. eapply Permutation_in; [symmetry; apply cyc_rev|]. apply in_map_iff. exists (x, y). split; [reflexivity|]. eapply Permutation_in; [apply cyc_rot|exact H].
Qed.
Lemma same_loop_in l l' x : same_loop l l' -> In x l -> In x l'.
Proof. intros (a & b & -> & [->| ->]) H; [|apply -> in_rev]; apply in_or_app; apply in_app_or in H; tauto. Qed.
Lemma same_loop_length l l' : same_loop l l' -> length l' = length l.
Proof. intros (a & b & -> & [->| ->]); rewrite ?rev_length, !app_length; lia. Qed.
Lemma same_loop_scaled k l l' : same_loop l l' -> same_loop (map (scaled k) l) (map (scaled k) l').
Proof. intros (a & b & -> & [->| ->]); exists (map (scaled k) a), (map (scaled k) b); rewrite ?map_rev, !map_app; auto. Qed.
Definition windl (l : list zpt) (p : zpt) : Z := zsuml (fun e => cr (fst e) (snd e) p) (Stokes.cyc l).
Lemma wind_windl z c p : wind z c p = windl (map z c) p.
Proof. unfold wind, windl. rewrite cyc_map, zsuml_map. reflexivity. Qed.
Lemma windl_same l l' p : same_loop l l' -> windl l' p = windl l p \/ windl l' p = (- windl l p)%Z.
Proof.
  intros (a & b & -> & [->| ->]); unfold windl.
  - left. apply zsuml_perm. apply cyc_rot.
  - right. rewrite (zsuml_perm _ _ _ (cyc_rev (b ++ a))), zsuml_map, <- zsuml_opp. rewrite (zsuml_perm _ _ _ (cyc_rot a b)). apply zsuml_ext. intros e _. unfold swp. cbn [fst snd]. apply cr_anti.
Qed.
Lemma wind_same zs1 zs2 c1 c2 k p : same_loop (loop_of zs1 c1) (loop_of zs2 c2) ->
  (wind (fun v => scaled k (zat zs1 v)) c1 p = 0%Z <-> wind (fun v => scaled k (zat zs2 v)) c2 p = 0%Z).
Proof.
  intro H. rewrite !wind_windl.
  assert (E : forall zs c, map (fun v => scaled k (zat zs v)) c = map (scaled k) (loop_of zs c)) by (intros; unfold loop_of; rewrite map_map; reflexivity). rewrite !E.
  destruct (windl_same _ _ p (same_loop_scaled k _ _ H)); lia.
Qed.
Lemma wind_same1 zs1 zs2 c1 c2 p : same_loop (loop_of zs1 c1) (loop_of zs2 c2) -> (wind (zat zs1) c1 p = 0%Z <-> wind (zat zs2) c2 p = 0%Z).
Proof. intro H. rewrite <- (wind_1 (zat zs1)), <- (wind_1 (zat zs2)). apply wind_same. exact H. Qed.

Lemma same_description_sym zs1 poly1 holes1 zs2 poly2 holes2 : same_description zs1 poly1 holes1 zs2 poly2 holes2 -> same_description zs2 poly2 holes2 zs1 poly1 holes1.
Proof.
  intros (P & L & H1 & H2). split; [symmetry; exact P|]. split; [apply same_loop_sym; exact L|]. split.
  - intros h Ih. destruct (H2 h Ih) as (h' & A & B). exists h'. split; [exact A|apply same_loop_sym; exact B].
  - intros h Ih. destruct (H1 h Ih) as (h' & A & B). exists h'. split; [exact A|apply same_loop_sym; exact B].
Qed.

(** ** what carries over *)
Section Carry.
Variables zs1 zs2 : list zpt.
Variables poly1 poly2 : list nat.
Variables holes1 holes2 : list (list nat).
Hypothesis SD : same_description zs1 poly1 holes1 zs2 poly2 holes2.
Notation es1 := (flat_map Stokes.cyc (poly1 :: holes1)).
Notation es2 := (flat_map Stokes.cyc (poly2 :: holes2)).
Lemma contour_match c2 : In c2 (poly2 :: holes2) -> exists c1, In c1 (poly1 :: holes1) /\ same_loop (loop_of zs1 c1) (loop_of zs2 c2) /\ (In c2 holes2 -> In c1 holes1).
Proof using SD.
  destruct SD as (_ & L & _ & H2). intros Ic. assert (X : In c2 holes2 -> exists c1, In c1 holes1 /\ same_loop (loop_of zs1 c1) (loop_of zs2 c2)).
  { intro Ih. destruct (H2 (loop_of zs2 c2)) as (h & A & B); [apply in_map; exact Ih|]. apply in_map_iff in A as (c1 & <- & A). exists c1. auto. }
  destruct (in_dec (list_eq_dec Nat.eq_dec) c2 holes2) as [Ih|N].
  - destruct (X Ih) as (c1 & A & B). exists c1. split; [right; exact A|]. auto.
  - destruct Ic as [<-|Ic]; [|contradiction]. exists poly1. split; [left; reflexivity|]. split; [exact L|]. intro; contradiction.
Qed.
Lemma carry_points : points_in (length zs2) (zat zs2) (length zs1) (zat zs1).
Proof using SD.
  intros v Lv. destruct SD as (P & _). assert (I' : In (zat zs2 v) zs1) by (eapply Permutation_in; [symmetry; exact P|apply nth_In; exact Lv]).
  apply In_nth with (d := (0, 0)%Z) in I' as (w & Lw & E). exists w. auto.
Qed.
Lemma carry_edges : edges_in (zat zs2) es2 (zat zs1) es1.
Proof using SD.
  intros x y H. apply in_flat_map in H as (c2 & Ic & H). destruct (contour_match c2 Ic) as (c1 & Ic1 & SL & _).
  assert (E : In (zat zs2 x, zat zs2 y) (Stokes.cyc (loop_of zs2 c2))) by (unfold loop_of; rewrite cyc_map; apply in_map_iff; exists (x, y); auto).
  apply (same_loop_edge _ _ _ _ (same_loop_sym _ _ SL)) in E. unfold loop_of in E. rewrite cyc_map in E.
  destruct E as [E|E]; apply in_map_iff in E as ([x' y'] & E & I'); cbn [fst snd] in E; injection E as E1 E2.
  - exists x', y'. split; [left; apply in_flat_map; eauto|]. split; assumption.
  - exists y', x'. split; [right; apply in_flat_map; eauto|]. split; assumption.
Qed.
Lemma carry_region k p : in_region (zat zs2) poly2 holes2 k p -> in_region (zat zs1) poly1 holes1 k p.
Proof using SD.
  destruct SD as (_ & L & H1 & _). intros [A B]. split.
  - intro Q. apply A. apply (wind_same _ _ _ _ k p L). exact Q.
  - intros h Ih. destruct (H1 (loop_of zs1 h)) as (h' & C & D); [apply in_map; exact Ih|]. apply in_map_iff in C as (h2 & <- & C). apply (wind_same _ _ _ _ k p D). apply B. exact C.
Qed.
End Carry.

(** ** hypotheses on the first input carry over to the second *)
Lemma least_perm l l' : Permutation l l' -> least l = least l'.
Proof.
  intro P. destruct l as [|a l]. { apply Permutation_nil in P. subst. reflexivity. }
  assert (NE : l' <> []) by (intros ->; apply Permutation_sym, Permutation_nil in P; discriminate).
  destruct (least_ok (a :: l) ltac:(discriminate)) as [A1 A2]. destruct (least_ok l' NE) as [B1 B2].
  pose proof (A2 _ (Permutation_in _ (Permutation_sym P) B1)). pose proof (B2 _ (Permutation_in _ P A1)). lia.
Qed.
Lemma greatest_perm l l' : Permutation l l' -> greatest l = greatest l'.
Proof.
  intro P. destruct l as [|a l]. { apply Permutation_nil in P. subst. reflexivity. }
  assert (NE : l' <> []) by (intros ->; apply Permutation_sym, Permutation_nil in P; discriminate).
  destruct (greatest_ok (a :: l) ltac:(discriminate)) as [A1 A2]. destruct (greatest_ok l' NE) as [B1 B2].
  pose proof (A2 _ (Permutation_in _ (Permutation_sym P) B1)). pose proof (B2 _ (Permutation_in _ P A1)). lia.
Qed.
Lemma tenths_perm zs zs' : Permutation zs zs' -> Permutation (tenths zs) (tenths zs').
Proof.
  intro P. unfold tenths. rewrite (least_perm _ _ (Permutation_map fst P)), (greatest_perm _ _ (Permutation_map fst P)), (least_perm _ _ (Permutation_map snd P)), (greatest_perm _ _ (Permutation_map snd P)).
  apply Permutation_app; [|reflexivity]. apply Permutation_map. exact P.
Qed.
Definition gpl (l : list zpt) : Prop := forall i j k, i < length l -> j < length l -> k < length l -> i <> j -> j <> k -> i <> k -> orient (nth i l (0, 0)%Z) (nth j l (0, 0)%Z) (nth k l (0, 0)%Z) <> 0%Z.
Lemma ntc_gpl l : no_three_collinear l <-> gpl l.
Proof.
  split.
  - intros O i j k Li Lj Lk N1 N2 N3. destruct (Nat.lt_ge_cases i j), (Nat.lt_ge_cases j k), (Nat.lt_ge_cases i k); try lia.
    + apply O; lia.
    + intro Q. apply (O i k j); try lia. rewrite orient_swap', Q. reflexivity.
    + intro Q. apply (O k i j); try lia. rewrite orient_rot', Q. reflexivity.
    + intro Q. apply (O j i k); try lia. rewrite orient_swap, Q. reflexivity.
    + intro Q. apply (O j k i); try lia. rewrite orient_rot, Q. reflexivity.
    + intro Q. apply (O k j i); try lia. rewrite orient_rot, orient_swap', Q. reflexivity.
  - intros G i j k L1 L2 L3. apply G; lia.
Qed.
Lemma ntc_perm l l' : Permutation l l' -> no_three_collinear l -> no_three_collinear l'.
Proof.
  intros P H. apply ntc_gpl. apply ntc_gpl in H. apply (Permutation_nth l l' (0, 0)%Z) in P as (LE & f & F1 & F2 & F3).
  intros i j k Li Lj Lk N1 N2 N3. rewrite LE in Li, Lj, Lk. rewrite !F3 by assumption. apply H; try (apply F1; assumption); intro Q; apply F2 in Q; auto.
Qed.
Lemma carry_integer zs zs' : Permutation zs zs' -> integer_input zs -> integer_input zs'.
Proof.
  intros P (L & F & N). split; [rewrite <- (Permutation_length P); exact L|]. split.
  - apply Forall_forall. intros x Ix. apply (proj1 (Forall_forall _ _) F). eapply Permutation_in; [symmetry; exact P|exact Ix].
  - exact (ntc_perm _ _ (tenths_perm _ _ P) N).
Qed.

Section Carry2.
Variables zs1 zs2 : list zpt.
Variables poly1 poly2 : list nat.
Variables holes1 holes2 : list (list nat).
Hypothesis SD : same_description zs1 poly1 holes1 zs2 poly2 holes2.
Hypothesis IN2 : integer_input zs2.
Notation es1 := (flat_map Stokes.cyc (poly1 :: holes1)).
Notation es2 := (flat_map Stokes.cyc (poly2 :: holes2)).
Hypothesis ND2 : NoDup (concat (poly2 :: holes2)).
Hypothesis RG2 : forall c v, In c (poly2 :: holes2) -> In v c -> v < length zs2.
Hypothesis L31 : forall c, In c (poly1 :: holes1) -> 3 <= length c.
Lemma carry_apart : edges_apart zs1 es1 -> edges_apart zs2 es2.
Proof using SD.
  intros EA [x y] [u w] I1 I2. cbn [fst snd].
  destruct (carry_edges _ _ _ _ _ _ SD x y I1) as (x' & y' & H1 & <- & <-). destruct (carry_edges _ _ _ _ _ _ SD u w I2) as (u' & w' & H2 & <- & <-).
  assert (X : forall a b c d, In (a, b) es1 -> In (c, d) es1 -> ~ (orient (zat zs1 a) (zat zs1 b) (zat zs1 c) * orient (zat zs1 a) (zat zs1 b) (zat zs1 d) < 0 /\ orient (zat zs1 c) (zat zs1 d) (zat zs1 a) * orient (zat zs1 c) (zat zs1 d) (zat zs1 b) < 0)%Z).
  { intros a b c d J1 J2. exact (EA (a, b) (c, d) J1 J2). }
  intros [Q1 Q2]. destruct H1 as [H1|H1], H2 as [H2|H2].
  - exact (X _ _ _ _ H1 H2 (conj Q1 Q2)).
  - apply (X _ _ _ _ H1 H2). rewrite (orient_swap (zat zs1 u') (zat zs1 w')), (orient_swap (zat zs1 u') (zat zs1 w')). lia.
  - apply (X _ _ _ _ H1 H2). rewrite (orient_swap (zat zs1 x') (zat zs1 y')), (orient_swap (zat zs1 x') (zat zs1 y')). lia.
  - apply (X _ _ _ _ H1 H2). rewrite !(orient_swap (zat zs1 u') (zat zs1 w')), !(orient_swap (zat zs1 x') (zat zs1 y')). lia.
Qed.
Lemma carry_caps : (forall p q, In (p, q) es1 \/ In (q, p) es1 -> ~ capped zs1 p q) -> forall p q, In (p, q) es2 \/ In (q, p) es2 -> ~ capped zs2 p q.
Proof using SD.
  intros H p q Ie. assert (X : exists p' q', (In (p', q') es1 \/ In (q', p') es1) /\ zat zs1 p' = zat zs2 p /\ zat zs1 q' = zat zs2 q).
  { destruct Ie as [Ie|Ie]; destruct (carry_edges _ _ _ _ _ _ SD _ _ Ie) as (x & y & A & B & C); [exists x, y|exists y, x]; tauto. }
  destruct X as (p' & q' & Ie' & E1 & E2). intros (C1 & C2 & u & v & w & Lu & Lv & Lw & R). apply (H p' q' Ie'). unfold capped. rewrite E1, E2. split; [exact C1|]. split; [exact C2|].
  destruct (carry_points _ _ _ _ _ _ SD u Lu) as (u' & Lu' & Eu). destruct (carry_points _ _ _ _ _ _ SD v Lv) as (v' & Lv' & Ev). destruct (carry_points _ _ _ _ _ _ SD w Lw) as (w' & Lw' & Ew).
  exists u', v', w'. rewrite Eu, Ev, Ew. split; [exact Lu'|]. split; [exact Lv'|]. split; [exact Lw'|]. exact R.
Qed.
Lemma carry_length c : In c (poly2 :: holes2) -> 3 <= length c.
Proof using SD L31.
  intro Ic. destruct (contour_match _ _ _ _ _ _ SD c Ic) as (c1 & I1 & SL & _). apply same_loop_length in SL. unfold loop_of in SL. rewrite !map_length in SL. rewrite SL. apply L31. exact I1.
Qed.
Lemma on_both c c' v w : In c (poly2 :: holes2) -> In c' (poly2 :: holes2) -> In v c -> In w c' -> zat zs2 v = zat zs2 w -> c = c'.
Proof using IN2 ND2 RG2.
  intros Ic Ic' Iv Iw E. destruct (Nat.eq_dec v w) as [->|N].
  - exact (concat_disj _ _ _ w ND2 Ic Ic' Iv Iw).
  - exfalso. apply (proj1 (int_gp zs2 IN2) v w (RG2 c v Ic Iv) (RG2 c' w Ic' Iw) N). exact E.
Qed.
Lemma carry_holes : holes_inside zs1 poly1 holes1 -> holes_inside zs2 poly2 holes2.
Proof using All.
  intros H k p h K Ih W. destruct (contour_match _ _ _ _ _ _ SD h (or_intror Ih)) as (h1 & _ & SL & J). specialize (J Ih).
  destruct SD as (_ & L & _ & _).
  assert (W1 : wind (fun v => scaled k (zat zs1 v)) h1 p <> 0%Z) by (intro Q; apply W; apply (wind_same _ _ _ _ k p SL); exact Q).
  destruct (H k p h1 K J W1) as [A B]. split; [intro Q; apply A; apply (wind_same _ _ _ _ k p L); exact Q|].
  intros h' Ih' N. destruct (contour_match _ _ _ _ _ _ SD h' (or_intror Ih')) as (h1' & _ & SL' & J'). specialize (J' Ih'). apply (wind_same _ _ _ _ k p SL'). apply B; auto.
  intros ->. apply N.
  assert (NE : exists v, In v h) by (pose proof (carry_length h (or_intror Ih)); destruct h as [|v h0]; [cbn in *; lia|exists v; left; reflexivity]). destruct NE as [v Iv].
  assert (X : In (zat zs2 v) (loop_of zs2 h')) by (apply (same_loop_in _ _ _ SL'); apply (same_loop_in _ _ _ (same_loop_sym _ _ SL)); apply in_map; exact Iv).
  apply in_map_iff in X as (w & E & Iw). exact (on_both h' h w v (or_intror Ih') (or_intror Ih) Iw Iv E).
Qed.
Lemma carry_loose : loose_points_allowed zs1 poly1 holes1 -> loose_points_allowed zs2 poly2 holes2.
Proof using All.
  intros H v Lv Nv. destruct (carry_points _ _ _ _ _ _ SD v Lv) as (w & Lw & E). rewrite <- E. pose proof SD as (_ & L & _ & _).
  destruct (H w Lw) as [H1|(q & Lq & X & Y)].
  2:{ left. intro Q. apply (wind_same1 _ _ _ _ _ L) in Q. exact (H1 Q). }
  2:{ right. destruct (carry_points _ _ _ _ _ _ (same_description_sym _ _ _ _ _ _ SD) q Lq) as (q2 & Lq2 & E2). exists q2. rewrite E2. auto. }
  intros c Ic Iw. destruct (contour_match _ _ _ _ _ _ (same_description_sym _ _ _ _ _ _ SD) c Ic) as (c2 & I2 & SL & _).
  assert (X : In (zat zs1 w) (loop_of zs2 c2)) by (apply (same_loop_in _ _ _ (same_loop_sym _ _ SL)); apply in_map; exact Iw). apply in_map_iff in X as (x & Ex & Ix).
  apply (Nv c2 I2). destruct (Nat.eq_dec x v) as [<-|N]; [exact Ix|]. exfalso. apply (proj1 (int_gp zs2 IN2) x v (RG2 c2 x I2 Ix) Lv N). congruence.
Qed.
End Carry2.

Lemma cocircular_perm l l' : Permutation l l' -> no_four_cocircular (length l) (zat l) -> no_four_cocircular (length l') (zat l').
Proof.
  intros P H. apply (Permutation_nth l l' (0, 0)%Z) in P as (LE & f & F1 & F2 & F3).
  intros a b c d La Lb Lc Ld N1 N2 N3 N4 N5 N6. rewrite LE in La, Lb, Lc, Ld. unfold zat in *. rewrite !F3 by assumption.
  apply H; try (apply F1; assumption); intro Q; apply F2 in Q; auto.
Qed.
Section Pair.
Variables zs1 zs2 : list zpt.
Variables poly1 poly2 : list nat.
Variables holes1 holes2 : list (list nat).
Hypothesis SD : same_description zs1 poly1 holes1 zs2 poly2 holes2.
Hypothesis IN1 : integer_input zs1.
Notation es1 := (flat_map Stokes.cyc (poly1 :: holes1)).
Notation es2 := (flat_map Stokes.cyc (poly2 :: holes2)).
Hypothesis RG1 : forall c v, In c (poly1 :: holes1) -> In v c -> v < length zs1.
Hypothesis RG2 : forall c v, In c (poly2 :: holes2) -> In v c -> v < length zs2.
Hypothesis NC1 : no_four_cocircular (length zs1) (zat zs1).
Lemma edges_range cs (n : nat) : (forall c v, In c cs -> In v c -> v < n) -> forall x y, In (x, y) (flat_map Stokes.cyc cs) -> x < n /\ y < n.
Proof. intros R x y H. apply in_flat_map in H as (c & Ic & H). apply Stokes.cyc_in in H as [A B]. split; eapply R; eauto. Qed.
Lemma same_cdt ids1 ids2 : proper_cdt (length zs1) (zat zs1) es1 poly1 holes1 ids1 -> proper_cdt (length zs2) (zat zs2) es2 poly2 holes2 ids2 -> same_triangles zs1 ids1 zs2 ids2.
Proof using All.
  intros (A1 & A2 & A3 & _) (B1 & B2 & B3 & _). pose proof (same_description_sym _ _ _ _ _ _ SD) as SD'. pose proof SD as (P & _).
  pose proof (carry_integer _ _ P IN1) as IN2. destruct (int_gp zs1 IN1) as [_ G1]. destruct (int_gp zs2 IN2) as [_ G2]. pose proof (cocircular_perm _ _ P NC1) as NC2.
  split; intros a b c It.
  - apply (cdt_unique (length zs1) (zat zs1) es1 poly1 holes1 ids1 (length zs2) (zat zs2) es2 poly2 holes2 ids2); auto.
    + intros x y. apply edges_range. exact RG1.
    + intros x y. apply edges_range. exact RG2.
    + exact (carry_points _ _ _ _ _ _ SD').
    + exact (carry_points _ _ _ _ _ _ SD).
    + exact (carry_edges _ _ _ _ _ _ SD').
    + exact (carry_edges _ _ _ _ _ _ SD).
    + intros k p _. exact (carry_region _ _ _ _ _ _ SD' k p).
  - apply (cdt_unique (length zs2) (zat zs2) es2 poly2 holes2 ids2 (length zs1) (zat zs1) es1 poly1 holes1 ids1); auto.
    + intros x y. apply edges_range. exact RG2.
    + intros x y. apply edges_range. exact RG1.
    + exact (carry_points _ _ _ _ _ _ SD).
    + exact (carry_points _ _ _ _ _ _ SD').
    + exact (carry_edges _ _ _ _ _ _ SD).
    + exact (carry_edges _ _ _ _ _ _ SD').
    + intros k p _. exact (carry_region _ _ _ _ _ _ SD k p).
Qed.
End Pair.

(** ** C48: finished runs *)
Theorem C48_finished_runs : forall PD1 PD2 dbg1 dbg2 fuel1 fuel2 (src1 : @source F64 PD1) calls1 ue zs1 (b1 : Builder PD1) t1 cbs1 (src2 : @source F64 PD2) calls2 zs2 (b2 : Builder PD2) t2 cbs2,
  unit_ok ue -> history_points PD1 src1 calls1 = map (grid ue) zs1 -> history_points PD2 src2 calls2 = map (grid ue) zs2 ->
  same_description zs1 (outer_contour PD1 src1) (hole_contours PD1 src1 calls1) zs2 (outer_contour PD2 src2) (hole_contours PD2 src2 calls2) ->
  (** about the first input *)
  integer_input zs1 -> no_four_cocircular (length zs1) (zat zs1) -> edges_apart zs1 (history_edges PD1 src1 calls1) ->
  (forall c, In c (outer_contour PD1 src1 :: hole_contours PD1 src1 calls1) -> 3 <= length c) ->
  holes_inside zs1 (outer_contour PD1 src1) (hole_contours PD1 src1 calls1) -> loose_points_allowed zs1 (outer_contour PD1 src1) (hole_contours PD1 src1 calls1) ->
  (** both runs finish, neither announces an inverted triangle *)
  builder_of PD1 src1 calls1 = Done b1 -> observed dbg1 fuel1 (build PD1 b1) = (Done t1, cbs1) -> fills_ccw (c_points (build PD1 b1)) cbs1 ->
  builder_of PD2 src2 calls2 = Done b2 -> observed dbg2 fuel2 (build PD2 b2) = (Done t2, cbs2) -> fills_ccw (c_points (build PD2 b2)) cbs2 ->
  exists ids1 ids2, triangle_list_indices dbg1 PD1 t1 = Done ids1 /\ triangle_list_indices dbg2 PD2 t2 = Done ids2 /\ same_triangles zs1 ids1 zs2 ids2.
Proof.
  intros PD1 PD2 dbg1 dbg2 fuel1 fuel2 src1 calls1 ue zs1 b1 t1 cbs1 src2 calls2 zs2 b2 t2 cbs2 UB HP1 HP2 SD IN1 NC EA1 L31 HN1 ST1 B1 O1 F1 B2 O2 F2.
  pose proof SD as (P & _). pose proof (carry_integer _ _ P IN1) as IN2.
  destruct (contours_range PD1 src1 calls1) as [ND1 RG1]. rewrite HP1, map_length in RG1. destruct (contours_range PD2 src2 calls2) as [ND2 RG2]. rewrite HP2, map_length in RG2.
  destruct (C43_integer_finished_run PD1 dbg1 fuel1 src1 calls1 ue zs1 b1 t1 cbs1 UB HP1 IN1 B1 EA1 O1 F1 L31 HN1 ST1) as (ids1 & T1 & C1).
  rewrite <- contours_edges in EA1. pose proof (carry_apart _ _ _ _ _ _ SD EA1) as EA2. rewrite contours_edges in EA2.
  destruct (C43_integer_finished_run PD2 dbg2 fuel2 src2 calls2 ue zs2 b2 t2 cbs2 UB HP2 IN2 B2 EA2 O2 F2) as (ids2 & T2 & C2).
  - exact (carry_length _ _ _ _ _ _ SD L31).
  - apply (carry_holes _ _ _ _ _ _ SD IN2 ND2 RG2 L31 HN1).
  - apply (carry_loose _ _ _ _ _ _ SD IN2 ND2 RG2 L31 ST1).
  - exists ids1, ids2. split; [exact T1|]. split; [exact T2|]. rewrite <- contours_edges in C1, C2. exact (same_cdt _ _ _ _ _ _ SD IN1 RG1 RG2 NC ids1 ids2 C1 C2).
Qed.

(** ** C48: integer inputs without a cap: both runs finish, and return the same triangles *)
Theorem C48_same_result : forall PD1 PD2 (src1 : @source F64 PD1) calls1 ue zs1 (src2 : @source F64 PD2) calls2 zs2,
  unit_ok ue -> history_points PD1 src1 calls1 = map (grid ue) zs1 -> history_points PD2 src2 calls2 = map (grid ue) zs2 ->
  same_description zs1 (outer_contour PD1 src1) (hole_contours PD1 src1 calls1) zs2 (outer_contour PD2 src2) (hole_contours PD2 src2 calls2) ->
  (** about the first input *)
  integer_input zs1 -> no_four_cocircular (length zs1) (zat zs1) -> edges_apart zs1 (history_edges PD1 src1 calls1) ->
  (forall p q, In (p, q) (history_edges PD1 src1 calls1) \/ In (q, p) (history_edges PD1 src1 calls1) -> ~ capped zs1 p q) ->
  (forall c, In c (outer_contour PD1 src1 :: hole_contours PD1 src1 calls1) -> 3 <= length c) ->
  holes_inside zs1 (outer_contour PD1 src1) (hole_contours PD1 src1 calls1) -> loose_points_allowed zs1 (outer_contour PD1 src1) (hole_contours PD1 src1 calls1) ->
  exists b1 b2, builder_of PD1 src1 calls1 = Done b1 /\ builder_of PD2 src2 calls2 = Done b2 /\
  forall dbg1 dbg2, exists t1 t2 ids1 ids2,
    (forall fuel, steps (length zs1) <= fuel -> triangulate dbg1 PD1 fuel (build PD1 b1) = Done t1) /\ triangle_list_indices dbg1 PD1 t1 = Done ids1 /\
    (forall fuel, steps (length zs2) <= fuel -> triangulate dbg2 PD2 fuel (build PD2 b2) = Done t2) /\ triangle_list_indices dbg2 PD2 t2 = Done ids2 /\
    same_triangles zs1 ids1 zs2 ids2.
Proof.
  intros PD1 PD2 src1 calls1 ue zs1 src2 calls2 zs2 UB HP1 HP2 SD IN1 NC EA1 CU1 L31 HN1 ST1.
  pose proof SD as (P & _). pose proof (carry_integer _ _ P IN1) as IN2.
  destruct (contours_range PD1 src1 calls1) as [ND1 RG1]. rewrite HP1, map_length in RG1. destruct (contours_range PD2 src2 calls2) as [ND2 RG2]. rewrite HP2, map_length in RG2.
  destruct (C28_integer_inputs_cdt_partial PD1 src1 calls1 ue zs1 UB HP1 IN1 EA1 CU1 L31 HN1 ST1) as (b1 & B1 & R1).
  rewrite <- contours_edges in EA1, CU1. pose proof (carry_apart _ _ _ _ _ _ SD EA1) as EA2. pose proof (carry_caps _ _ _ _ _ _ SD CU1) as CU2. rewrite contours_edges in EA2, CU2.
  destruct (C28_integer_inputs_cdt_partial PD2 src2 calls2 ue zs2 UB HP2 IN2 EA2 CU2) as (b2 & B2 & R2).
  - exact (carry_length _ _ _ _ _ _ SD L31).
  - apply (carry_holes _ _ _ _ _ _ SD IN2 ND2 RG2 L31 HN1).
  - apply (carry_loose _ _ _ _ _ _ SD IN2 ND2 RG2 L31 ST1).
  - exists b1, b2. split; [exact B1|]. split; [exact B2|]. intros dbg1 dbg2. destruct (R1 dbg1) as (t1 & ids1 & T1 & X1 & C1). destruct (R2 dbg2) as (t2 & ids2 & T2 & X2 & C2).
    exists t1, t2, ids1, ids2. split; [exact T1|]. split; [exact X1|]. split; [exact T2|]. split; [exact X2|].
    rewrite <- contours_edges in C1, C2. exact (same_cdt _ _ _ _ _ _ SD IN1 RG1 RG2 NC ids1 ids2 C1 C2).
Qed.

(** one polygon, no holes, no Steiner points: started at another corner, or listed in the other direction *)
Lemma map_nth_seq {X} (d : X) l : map (fun i => nth i l d) (seq 0 (length l)) = l.
Proof.
  assert (G : forall k, map (fun i => nth (i - k) l d) (seq k (length l)) = l).
  { induction l as [|x l IH]; intro k; cbn [length seq map]; auto. rewrite Nat.sub_diag. cbn [nth]. f_equal. rewrite <- (IH (S k)) at 2. apply map_ext_in. intros i Hi. apply in_seq in Hi.
    replace (i - k) with (S (i - S k)) by lia. reflexivity. }
  transitivity (map (fun i => nth (i - 0) l d) (seq 0 (length l))); [|exact (G 0)]. apply map_ext. intro i. rewrite Nat.sub_0_r. reflexivity.
Qed.
Lemma loop_seq zs : loop_of zs (seq 0 (length zs)) = zs.
Proof. exact (map_nth_seq (0, 0)%Z zs). Qed.
Lemma same_loop_description zs1 zs2 : same_loop zs1 zs2 -> same_description zs1 (seq 0 (length zs1)) [] zs2 (seq 0 (length zs2)) [].
Proof.
  intro H. split; [|split; [rewrite !loop_seq; exact H|split; intros h []]].
  destruct H as (a & b & -> & [->| ->]); [|etransitivity; [|apply Permutation_rev]]; apply Permutation_app_comm.
Qed.
Theorem C48_polygon : forall zs1 zs2, same_loop zs1 zs2 -> integer_input zs1 -> no_four_cocircular (length zs1) (zat zs1) ->
  edges_apart zs1 (ring (length zs1)) -> (forall p q, In (p, q) (ring (length zs1)) \/ In (q, p) (ring (length zs1)) -> ~ capped zs1 p q) ->
  forall dbg1 dbg2, exists ids1 ids2, forall fuel, steps (length zs1) <= fuel ->
    indices64 dbg1 fuel zs1 [] [] = Done ids1 /\ indices64 dbg2 fuel zs2 [] [] = Done ids2 /\ same_triangles zs1 ids1 zs2 ids2.
Proof.
  intros zs1 zs2 SL IN NC EA CU dbg1 dbg2. pose proof (same_loop_description _ _ SL) as SD. pose proof SD as (P & _).
  assert (E : forall n, flat_map Stokes.cyc [seq 0 n] = ring n) by (intro n; cbn [flat_map]; rewrite app_nil_r, cyc_seq; reflexivity).
  rewrite <- E in EA, CU. pose proof (carry_apart _ _ _ _ _ _ SD EA) as EA2. pose proof (carry_caps _ _ _ _ _ _ SD CU) as CU2. rewrite E in EA, CU, EA2, CU2.
  destruct (C28_integer_polygon_cdt_partial zs1 IN EA CU dbg1) as (ids1 & H1 & C1).
  destruct (C28_integer_polygon_cdt_partial zs2 (carry_integer _ _ P IN) EA2 CU2 dbg2) as (ids2 & H2 & C2).
  exists ids1, ids2. intros fuel LE. split; [apply H1; exact LE|]. split; [apply H2; rewrite <- (Permutation_length P); exact LE|]. rewrite <- E in C1, C2.
  refine (same_cdt _ _ _ _ _ _ SD IN _ _ NC ids1 ids2 C1 C2); intros c v [<-|[]] Iv; apply in_seq in Iv; lia.
Qed.

(** a convex polygon: no hypothesis about caps *)
Theorem C48_convex_polygon : forall zs1 zs2, same_loop zs1 zs2 -> integer_input zs1 -> convex_polygon zs1 -> no_four_cocircular (length zs1) (zat zs1) ->
  forall dbg1 dbg2, exists ids1 ids2, forall fuel, steps (length zs1) <= fuel ->
    indices64 dbg1 fuel zs1 [] [] = Done ids1 /\ indices64 dbg2 fuel zs2 [] [] = Done ids2 /\ same_triangles zs1 ids1 zs2 ids2.
Proof. intros zs1 zs2 SL IN C NC. destruct (convex_no_cap zs1 IN C) as [EA CU]. apply C48_polygon; assumption. Qed.

(** ** examples *)
Definition cocircularb (zs : list zpt) : bool :=
  let n := length zs in forallb (fun a => forallb (fun b => forallb (fun c => forallb (fun d =>
    (a =? b) || (b =? c) || (a =? c) || (d =? a) || (d =? b) || (d =? c) || negb (Z.eqb (incircle (zat zs a) (zat zs b) (zat zs c) (zat zs d)) 0)) (seq 0 n)) (seq 0 n)) (seq 0 n)) (seq 0 n).
Lemma cocircularb_ok zs : cocircularb zs = true -> no_four_cocircular (length zs) (zat zs).
Proof.
  intros H a b c d La Lb Lc Ld N1 N2 N3 N4 N5 N6. unfold cocircularb in H.
  assert (S' : forall v, v < length zs -> In v (seq 0 (length zs))) by (intros v Lv; apply in_seq; lia).
  rewrite forallb_forall in H. specialize (H a (S' a La)). rewrite forallb_forall in H. specialize (H b (S' b Lb)). rewrite forallb_forall in H. specialize (H c (S' c Lc)). rewrite forallb_forall in H. specialize (H d (S' d Ld)).
  apply Nat.eqb_neq in N1, N2, N3, N4, N5, N6. rewrite N1, N2, N3, N4, N5, N6 in H. cbn in H. intro Q. rewrite Q in H. discriminate.
Qed.
(** the star, from its fourth corner and clockwise *)
Definition star' : list zpt := rev ([(47,29);(63,59);(33,44);(2,61);(14,30)] ++ [(0,0);(31,6);(60,1)])%Z.
Example star_same : same_loop star star' /\ no_four_cocircular 8 (zat star) /\ forall dbg, exists ids1 ids2, forall fuel, steps 8 <= fuel ->
    indices64 dbg fuel star [] [] = Done ids1 /\ indices64 dbg fuel star' [] [] = Done ids2 /\ same_triangles star ids1 star' ids2.
Proof.
  assert (SL : same_loop star star') by (exists [(0,0);(31,6);(60,1)]%Z, [(47,29);(63,59);(33,44);(2,61);(14,30)]%Z; auto).
  assert (NC : no_four_cocircular 8 (zat star)) by (apply (cocircularb_ok star); vm_compute; reflexivity).
  split; [exact SL|]. split; [exact NC|]. intro dbg. destruct star_ok as (H1 & H2 & H3 & _). exact (C48_polygon star star' SL H1 NC H2 H3 dbg dbg).
Qed.
(** the triangle with a hole and a Steiner point: the Steiner point given first, the hole clockwise, the outer contour from its last corner *)
Definition annulus' : list zpt := [(32,58);(3,1);(61,5);(29,36);(38,17);(25,14);(30,29)]%Z.
Definition hole_src' : @source F64 unit := unit_src [(32,58);(3,1);(61,5)]%Z.
Definition hole_calls' : list (@call F64 unit) := [CSteiners unit (unit_src [(29,36)]%Z); CHole unit (unit_src [(38,17);(25,14);(30,29)]%Z)].
Lemma annulus_description : same_description annulus (outer_contour unit hole_src) (hole_contours unit hole_src hole_calls) annulus' (outer_contour unit hole_src') (hole_contours unit hole_src' hole_calls').
Proof.
  change (same_description annulus [0;1;2] [[3;4;5]] annulus' [0;1;2] [[4;5;6]]). split; [|split].
  - unfold annulus, annulus'. change (Permutation ([(3,1);(61,5)] ++ [(32,58)] ++ [(25,14);(38,17);(30,29);(29,36)])%Z ([(32,58)] ++ [(3,1);(61,5)] ++ [(29,36);(38,17);(25,14);(30,29)])%Z).
      rewrite !app_assoc. apply Permutation_app; [apply Permutation_app_comm|]. cbn. change (Permutation ([(25,14);(38,17);(30,29)] ++ [(29,36)])%Z ([(29,36)] ++ [(38,17);(25,14);(30,29)])%Z).
      etransitivity; [apply Permutation_app_comm|]. apply Permutation_app_head. apply perm_swap.
  - exists [(3,1);(61,5)]%Z, [(32,58)]%Z. split; [reflexivity|]. left. reflexivity.
  - assert (SL : same_loop [(25,14);(38,17);(30,29)]%Z [(38,17);(25,14);(30,29)]%Z) by (exists [(25,14);(38,17)]%Z, [(30,29)]%Z; split; [reflexivity|]; right; reflexivity).
      split; [intros h [<-|[]]; exists [(38,17);(25,14);(30,29)]%Z|intros h [<-|[]]; exists [(25,14);(38,17);(30,29)]%Z]; (split; [left; reflexivity|exact SL]).
Qed.
Example annulus_same : exists b1 b2, builder_of unit hole_src hole_calls = Done b1 /\ builder_of unit hole_src' hole_calls' = Done b2 /\
  forall dbg1 dbg2, exists t1 t2 ids1 ids2,
    (forall fuel, steps 7 <= fuel -> triangulate dbg1 unit fuel (build unit b1) = Done t1) /\ triangle_list_indices dbg1 unit t1 = Done ids1 /\
    (forall fuel, steps 7 <= fuel -> triangulate dbg2 unit fuel (build unit b2) = Done t2) /\ triangle_list_indices dbg2 unit t2 = Done ids2 /\
    same_triangles annulus ids1 annulus' ids2.
Proof.
  destruct annulus_ok as (H1 & H2 & H3 & H4 & H5 & H6 & H7).
  apply (C48_same_result unit unit hole_src hole_calls 0%Z annulus hole_src' hole_calls' annulus' unit_0 H1 eq_refl); auto.
  - exact annulus_description.
  - apply cocircularb_ok. vm_compute. reflexivity.
Qed.
Print Assumptions C48_finished_runs.
Print Assumptions C48_same_result.
Print Assumptions C48_polygon.
Print Assumptions C48_convex_polygon.
