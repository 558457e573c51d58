(** * IntRun: the points of a run on a fixed-point input *)
From Coq Require Import ZArith Bool Lia List Reals Lra.
From Coq.Floats Require Import SpecFloat.
From Flocq Require Import Core.
From Verif Require Import Base Num Shape Utils Points Front Sweeper F64 Lists Exact F64Exact Spec Setup Good PropsMarks FillTotal Local F64Real IntSpec IntF64.
Import ListNotations.
Local Open Scope nat_scope.

(** ** the points of a run *)
Section Int.
Variable e : Z.
Hypothesis EB : unit_ok e.
Notation near := (near e).
Notation nearp := (nearp e).
Notation w := (wv e).
Notation w2 := (wv (e + e)).
Variable zs : list zpt.
Variable edges : list PointEdges.
Hypothesis IN : integer_input zs.
Let ps : @Points F64 := points_new (map (grid e) zs) edges.
Let T (i : nat) : zpt := nth i (tenths zs) (0, 0)%Z.
Let n := length zs.

Lemma zs_small z : In z zs -> small z.
Proof. intro H. destruct IN as (_ & F & _). rewrite Forall_forall in F. apply F. exact H. Qed.
Lemma zs_ne : zs <> [].
Proof. destruct IN as (L & _). intros ->. cbn in L. lia. Qed.
Lemma len_T : length (tenths zs) = n + 2.
Proof. unfold tenths. rewrite app_length, map_length. reflexivity. Qed.
Lemma len_ps : npts ps = n + 2.
Proof. unfold npts, ps, points_new. cbn [ps_points]. rewrite app_length, map_length. reflexivity. Qed.
Lemma T_in i : i < n -> T i = (10 * fst (nth i zs (0, 0)), 10 * snd (nth i zs (0, 0)))%Z.
Proof.
  intro L. unfold T, tenths. rewrite app_nth1 by (rewrite map_length; exact L).
  rewrite (nth_indep _ (0, 0)%Z ((fun z => (10 * fst z, 10 * snd z)%Z) (0, 0)%Z)) by (rewrite map_length; exact L). exact (map_nth (fun z : zpt => (10 * fst z, 10 * snd z)%Z) zs (0, 0)%Z i).
Qed.
Notation xlo := (least (map fst zs)).
Notation xhi := (greatest (map fst zs)).
Notation ylo := (least (map snd zs)).
Notation yhi := (greatest (map snd zs)).
Lemma T_head : T n = (10 * xlo - 3 * (xhi - xlo), 10 * ylo - 3 * (yhi - ylo))%Z.
Proof. unfold T, tenths. rewrite app_nth2 by (rewrite map_length; apply Nat.le_refl). rewrite map_length. unfold n. rewrite Nat.sub_diag. reflexivity. Qed.
Lemma T_tail : T (S n) = (10 * xhi + 3 * (xhi - xlo), 10 * ylo - 3 * (yhi - ylo))%Z.
Proof. unfold T, tenths. rewrite app_nth2 by (rewrite map_length; apply Nat.le_succ_diag_r). rewrite map_length. change (nth (S n - n) [(10 * xlo - 3 * (xhi - xlo), 10 * ylo - 3 * (yhi - ylo))%Z; (10 * xhi + 3 * (xhi - xlo), 10 * ylo - 3 * (yhi - ylo))%Z] (0, 0)%Z = (10 * xhi + 3 * (xhi - xlo), 10 * ylo - 3 * (yhi - ylo))%Z). replace (S n - n) with 1 by lia. reflexivity. Qed.

Lemma ps_cases i p : nth_error (ps_points ps) i = Some p ->
  (i < n /\ p = grid e (nth i zs (0, 0)%Z)) \/ (i = n /\ p = head_point (map (grid e) zs)) \/ (i = S n /\ p = tail_point (map (grid e) zs)).
Proof.
  intro H. assert (L := nth_error_lt _ _ _ H). fold (npts ps) in L. rewrite len_ps in L. unfold ps, points_new in H. cbn [ps_points] in H.
  destruct (Nat.lt_ge_cases i n) as [Q|Q].
  - left. split; auto. rewrite nth_error_app1 in H by (rewrite map_length; exact Q). rewrite (map_nth_error (grid e) i zs (nth_error_nth' zs (0, 0)%Z Q)) in H. injection H as <-. reflexivity.
  - right. rewrite nth_error_app2 in H by (rewrite map_length; exact Q). rewrite map_length in H. fold n in H.
    destruct (Nat.eq_dec i n) as [->|NE]; [left|right].
    + rewrite Nat.sub_diag in H. cbn [nth_error] in H. injection H as <-. auto.
    + assert (i = S n) as -> by lia. change (nth_error [head_point (map (grid e) zs); tail_point (map (grid e) zs)] (S n - n) = Some p) in H. replace (S n - n) with 1 in H by lia. cbn [nth_error] in H. injection H as <-. auto.
Qed.
Lemma bbox_x : let hi := xmax_of (map (grid e) zs) in let lo := xmin_of (map (grid e) zs) in
  ffin hi /\ w hi = IZR xhi /\ ffin lo /\ w lo = IZR xlo /\ (xlo <= xhi)%Z /\ (Z.abs xlo <= 65536)%Z /\ (Z.abs xhi <= 65536)%Z.
Proof. apply (bbox e EB px fst zs zs_ne). intros z Hz. split; [reflexivity|apply zs_small; auto]. Qed.
Lemma bbox_y : let hi := ymax_of (map (grid e) zs) in let lo := ymin_of (map (grid e) zs) in
  ffin hi /\ w hi = IZR yhi /\ ffin lo /\ w lo = IZR ylo /\ (ylo <= yhi)%Z /\ (Z.abs ylo <= 65536)%Z /\ (Z.abs yhi <= 65536)%Z.
Proof. apply (bbox e EB py snd zs zs_ne). intros z Hz. split; [reflexivity|apply zs_small; auto]. Qed.
Lemma pts_near i p : nth_error (ps_points ps) i = Some p -> nearp p (T i).
Proof.
  intro H. destruct bbox_x as (X1 & X2 & X3 & X4 & X5 & X6 & X7). destruct bbox_y as (Y1 & Y2 & Y3 & Y4 & Y5 & Y6 & Y7).
  destruct (frame_near e EB _ _ _ _ X3 X1 X4 X2 X5 X6 X7) as [FX1 FX2]. destruct (frame_near e EB _ _ _ _ Y3 Y1 Y4 Y2 Y5 Y6 Y7) as [FY1 FY2].
  destruct (ps_cases i p H) as [[L ->]|[[-> ->]|[-> ->]]].
  - rewrite (T_in i L). assert (Hz : In (nth i zs (0, 0)%Z) zs) by (apply nth_In; exact L). apply zs_small in Hz as [S1 S2].
    split; cbn [fst snd]; [apply (f64_small e EB _ S1)|apply (f64_small e EB _ S2)].
  - rewrite T_head. split; [exact FX1|exact FY1].
  - rewrite T_tail. split; [exact FX2|exact FY1].
Qed.
Lemma pts_exact i p : i < n -> nth_error (ps_points ps) i = Some p -> w (px p) = IZR (fst (nth i zs (0, 0)%Z)) /\ w (py p) = IZR (snd (nth i zs (0, 0)%Z)).
Proof.
  intros L H. destruct (ps_cases i p H) as [[_ ->]|[[-> _]|[-> _]]]; [|lia|lia].
  assert (Hz : In (nth i zs (0, 0)%Z) zs) by (apply nth_In; exact L). apply zs_small in Hz as [S1 S2].
  split; [apply (f64_small e EB _ S1)|apply (f64_small e EB _ S2)].
Qed.
Lemma zc_input i : i < n -> zc ps i = (2 ^ (1074 + e) * fst (nth i zs (0, 0)), 2 ^ (1074 + e) * snd (nth i zs (0, 0)))%Z.
Proof.
  intro L. destruct (nth_error_ex (ps_points ps) i) as [p Hp]; [fold (npts ps); rewrite len_ps; lia|].
  destruct (pts_exact i p L Hp) as [V1 V2]. destruct (nearp_fin e _ _ (pts_near i p Hp)) as [F1 F2].
  unfold zc. rewrite Hp. unfold zp. change (@zv F64 F64_exact) with (sf_zv 53 1024).
  assert (G : forall x m, ffin x -> w x = IZR m -> sf_zv 53 1024 x = (2 ^ (1074 + e) * m)%Z).
  { intros x m F V. apply eq_IZR. rewrite (zv_val x F), (wv_v e), V, mult_IZR. change 2%Z with (radix_val radix2). rewrite IZR_Zpower by (unfold unit_ok in EB; lia). rewrite bpow_plus. ring. }
  rewrite (G _ _ F1 V1), (G _ _ F2 V2). reflexivity.
Qed.

(** *** no three on a line *)
Lemma T_nocol i j k : i < n + 2 -> j < n + 2 -> k < n + 2 -> i <> j -> j <> k -> i <> k -> orient (T i) (T j) (T k) <> 0%Z.
Proof.
  destruct IN as (_ & _ & H). unfold no_three_collinear in H. rewrite len_T in H. fold T in H. intros Li Lj Lk N1 N2 N3.
  assert (S0 : forall a b c : zpt, (orient b a c = - orient a b c)%Z /\ (orient a c b = - orient a b c)%Z).
  { intros [] [] []. unfold orient, orient_det. cbn [fst snd]. split; ring. }
  assert (C : forall a b c, a < b -> b < c -> c < n + 2 -> orient (T a) (T b) (T c) <> 0%Z) by (intros a b c Q1 Q2 Q3; apply H; auto).
  destruct (Nat.lt_total i j) as [Q1|[Q1|Q1]]; [|lia|]; destruct (Nat.lt_total j k) as [Q2|[Q2|Q2]]; try lia; destruct (Nat.lt_total i k) as [Q3|[Q3|Q3]]; try lia.
  - apply C; auto.
  - specialize (C i k j Q3 Q2 Lj). rewrite (proj2 (S0 (T i) (T j) (T k))) in C. lia.
  - specialize (C k i j Q3 Q1 Lj). destruct (S0 (T i) (T k) (T j)) as [E1 _]. destruct (S0 (T i) (T j) (T k)) as [_ E2]. lia.
  - specialize (C j i k Q1 Q3 Lk). rewrite (proj1 (S0 (T i) (T j) (T k))) in C. lia.
  - specialize (C j k i Q2 Q3 Li). destruct (S0 (T j) (T i) (T k)) as [_ E1]. destruct (S0 (T i) (T j) (T k)) as [E2 _]. lia.
  - specialize (C k j i Q2 Q1 Li). destruct (S0 (T j) (T k) (T i)) as [E1 _]. destruct (S0 (T j) (T i) (T k)) as [_ E2]. destruct (S0 (T i) (T j) (T k)) as [E3 _]. lia.
Qed.
Lemma zc_pt i p : nth_error (ps_points ps) i = Some p -> zc ps i = zp p.
Proof. intro H. unfold zc. rewrite H. reflexivity. Qed.
Lemma orient_T i j k : i < n + 2 -> j < n + 2 -> k < n + 2 -> i <> j -> j <> k -> i <> k ->
  (0 < orient (zc ps i) (zc ps j) (zc ps k) <-> 0 < orient (T i) (T j) (T k))%Z /\ (orient (zc ps i) (zc ps j) (zc ps k) < 0 <-> orient (T i) (T j) (T k) < 0)%Z.
Proof.
  intros Li Lj Lk N1 N2 N3. rewrite <- len_ps in Li, Lj, Lk.
  destruct (nth_error_ex _ _ Li) as [p Hp], (nth_error_ex _ _ Lj) as [q Hq], (nth_error_ex _ _ Lk) as [r Hr].
  rewrite (zc_pt _ _ Hp), (zc_pt _ _ Hq), (zc_pt _ _ Hr). apply (orient_near e); try (apply pts_near; assumption). rewrite len_ps in Li, Lj, Lk. apply T_nocol; auto.
Qed.
Lemma int_nocol : nocol ps.
Proof.
  intros i j k Li Lj Lk N1 N2 N3. rewrite len_ps in Li, Lj, Lk. pose proof (orient_T i j k Li Lj Lk N1 N2 N3). pose proof (T_nocol i j k Li Lj Lk N1 N2 N3). lia.
Qed.

(** *** the bounding box is not flat *)
Lemma box_in (f : zpt -> Z) i : i < n -> (least (map f zs) <= f (nth i zs (0, 0)) <= greatest (map f zs))%Z.
Proof.
  intros Li. assert (I' : In (f (nth i zs (0, 0)%Z)) (map f zs)) by (apply in_map, nth_In; exact Li). assert (NE : map f zs <> []) by (intro Q; rewrite Q in I'; destruct I').
  split; [apply (least_ok _ NE)|apply (greatest_ok _ NE)]; auto.
Qed.
Lemma box_x i : i < n -> (xlo <= fst (nth i zs (0, 0)) <= xhi)%Z. Proof. apply (box_in fst). Qed.
Lemma box_y i : i < n -> (ylo <= snd (nth i zs (0, 0)) <= yhi)%Z. Proof. apply (box_in snd). Qed.
Lemma box : (xlo < xhi)%Z /\ (ylo < yhi)%Z.
Proof.
  destruct IN as (L & _). fold n in L. pose proof (T_nocol 0 1 2 ltac:(lia) ltac:(lia) ltac:(lia) ltac:(lia) ltac:(lia) ltac:(lia)) as C.
  rewrite !T_in in C by lia.
  pose proof (box_x 0 ltac:(lia)) as X0. pose proof (box_x 1 ltac:(lia)) as X1. pose proof (box_x 2 ltac:(lia)) as X2.
  pose proof (box_y 0 ltac:(lia)) as Y0. pose proof (box_y 1 ltac:(lia)) as Y1. pose proof (box_y 2 ltac:(lia)) as Y2.
  destruct (nth 0 zs (0, 0)%Z) as [x0 y0], (nth 1 zs (0, 0)%Z) as [x1 y1], (nth 2 zs (0, 0)%Z) as [x2 y2]. cbn [fst snd] in *.
  split; apply Z.nle_gt; intro Q; apply C; unfold orient, orient_det; cbn [fst snd].
  - assert (x0 = x2) as -> by lia. assert (x1 = x2) as -> by lia. ring.
  - assert (y0 = y2) as -> by lia. assert (y1 = y2) as -> by lia. ring.
Qed.

Lemma head_id : ps_head ps = n. Proof. unfold ps, points_new. cbn [ps_head]. apply map_length. Qed.
Lemma tail_id : ps_tail ps = S n. Proof. unfold ps, points_new. cbn [ps_tail]. rewrite map_length. reflexivity. Qed.
Lemma int_proper : proper ps.
Proof.
  assert (LN : 3 <= n) by (destruct IN; auto). destruct box as [BX BY]. pose proof len_ps as LP.
  destruct (nth_error_ex (ps_points ps) n) as [h Hh]; [fold (npts ps); lia|]. destruct (nth_error_ex (ps_points ps) (S n)) as [t Ht]; [fold (npts ps); lia|].
  pose proof (pts_near _ _ Hh) as [NH1 NH2]. pose proof (pts_near _ _ Ht) as [NT1 NT2]. rewrite T_head in NH1, NH2. rewrite T_tail in NT1, NT2. cbn [fst snd] in *.
  destruct NH1 as (FH1 & NH1 & _), NH2 as (FH2 & NH2 & _), NT1 as (FT1 & NT1 & _), NT2 as (FT2 & NT2 & _).
  apply Rabs_le_inv in NH1, NH2, NT1, NT2. unfold dl in *.
  assert (RX : (IZR xlo + 1 <= IZR xhi)%R) by (rewrite <- plus_IZR; apply IZR_le; lia). assert (RY : (IZR ylo + 1 <= IZR yhi)%R) by (rewrite <- plus_IZR; apply IZR_le; lia).
  rewrite ?minus_IZR, ?plus_IZR, ?mult_IZR, ?minus_IZR in *.
  constructor.
  - apply Forall_forall. intros p Hp. apply In_nth_error in Hp as [i Hp]. exact (nearp_fin e _ _ (pts_near i p Hp)).
  - intros i j Li Lj Q. destruct (Nat.eq_dec i j) as [|NE]; auto. exfalso.
    assert (K : exists k, k < npts ps /\ k <> i /\ k <> j).
    { destruct (Nat.eq_dec 0 i); [destruct (Nat.eq_dec 1 j); [exists 2|exists 1]|destruct (Nat.eq_dec 0 j); [destruct (Nat.eq_dec 1 i); [exists 2|exists 1]|exists 0]]; lia. }
    destruct K as (k & Lk & N1 & N2). apply (int_nocol i j k Li Lj Lk); auto. rewrite Q. destruct (zc ps j), (zc ps k). unfold orient, orient_det. cbn [fst snd]. ring.
  - rewrite head_id, len_ps. reflexivity.
  - rewrite tail_id, len_ps. lia.
  - intros i Li. rewrite head_id in *. rewrite tail_id.
    destruct (nth_error_ex (ps_points ps) i) as [p Hp]; [fold (npts ps); lia|]. rewrite (zc_pt _ _ Hp), (zc_pt _ _ Hh), (zc_pt _ _ Ht).
    destruct (pts_exact i p Li Hp) as [V1 V2]. destruct (nearp_fin e _ _ (pts_near i p Hp)) as [F1 F2].
    pose proof (box_x i Li) as [BX1 BX2]. pose proof (box_y i Li) as [BY1 BY2]. apply IZR_le in BX1, BX2, BY1, BY2.
    unfold zp. cbn [fst snd]. change (@zv F64 F64_exact) with (sf_zv 53 1024).
    split; [split|split]; apply (zw_lt e); auto; lra.
  - rewrite head_id, tail_id, (zc_pt _ _ Hh), (zc_pt _ _ Ht). unfold zp. cbn [fst]. change (@zv F64 F64_exact) with (sf_zv 53 1024). apply (zw_lt e); auto; lra.
Qed.

(** *** the determinant computed with rounding *)
Lemma sub_self (x : spec_float) X : near x X -> w (SFsub 53 1024 x x) = 0%R.
Proof. intro H. destruct (near_sub e EB x x X X H H) as [_ ->]. rewrite Rminus_diag_eq; auto. apply rn_0. Qed.
Lemma det_sign a b c pa pb pc f : nth_error (ps_points ps) a = Some pa -> nth_error (ps_points ps) b = Some pb -> nth_error (ps_points ps) c = Some pc ->
  (f = SFsub 53 1024 (SFmul 53 1024 (SFsub 53 1024 (px pa) (px pc)) (SFsub 53 1024 (py pb) (py pc))) (SFmul 53 1024 (SFsub 53 1024 (px pb) (px pc)) (SFsub 53 1024 (py pa) (py pc))) \/
   f = SFsub 53 1024 (SFmul 53 1024 (SFsub 53 1024 (px pa) (px pc)) (SFsub 53 1024 (py pb) (py pc))) (SFmul 53 1024 (SFsub 53 1024 (py pa) (py pc)) (SFsub 53 1024 (px pb) (px pc)))) ->
  let o := orient (zc ps a) (zc ps b) (zc ps c) in
  ffin f /\ ((0 < o)%Z -> (/ 1024 <= w2 f)%R) /\ ((o < 0)%Z -> (w2 f <= - / 1024)%R) /\ (o = 0%Z -> w2 f = 0%R).
Proof.
  intros Ha Hb Hc Hf o.
  pose proof (pts_near _ _ Ha) as [NA1 NA2]. pose proof (pts_near _ _ Hb) as [NB1 NB2]. pose proof (pts_near _ _ Hc) as [NC1 NC2].
  destruct (near_sub e EB _ _ _ _ NA1 NC1) as [D1 V1]. destruct (near_sub e EB _ _ _ _ NB2 NC2) as [D2 V2]. destruct (near_sub e EB _ _ _ _ NB1 NC1) as [D3 V3]. destruct (near_sub e EB _ _ _ _ NA2 NC2) as [D4 V4].
  assert (K : ffin f /\ (Rabs (w2 f - IZR (orient (T a) (T b) (T c)) / 100) <= / 512)%R /\
    ((w (SFsub 53 1024 (px pa) (px pc)) * w (SFsub 53 1024 (py pb) (py pc)) = w (SFsub 53 1024 (px pb) (px pc)) * w (SFsub 53 1024 (py pa) (py pc)))%R -> w2 f = 0%R)).
  { rewrite <- orient_tz. destruct Hf as [-> | ->].
    - destruct (det_close e EB _ _ _ _ _ _ _ _ D1 D2 D3 D4) as (F & C & Z0). split; auto. split; auto.
      replace (orR (tz (T a)) (tz (T b)) (tz (T c))) with ((IZR (fst (T a)) / 10 - IZR (fst (T c)) / 10) * (IZR (snd (T b)) / 10 - IZR (snd (T c)) / 10) - (IZR (fst (T b)) / 10 - IZR (fst (T c)) / 10) * (IZR (snd (T a)) / 10 - IZR (snd (T c)) / 10))%R by (unfold orR, tz; cbn [fst snd]; ring). exact C.
    - destruct (det_close e EB _ _ _ _ _ _ _ _ D1 D2 D4 D3) as (F & C & Z0). split; auto. split; [|intro Q; apply Z0; rewrite Q; apply Rmult_comm]. exact C. }
  destruct K as (F & C & Z0). split; auto. apply Rabs_le_inv in C.
  assert (La := nth_error_lt _ _ _ Ha). assert (Lb := nth_error_lt _ _ _ Hb). assert (Lc := nth_error_lt _ _ _ Hc).
  fold (npts ps) in La, Lb, Lc. rewrite len_ps in La, Lb, Lc.
  assert (DEG : a = b \/ b = c \/ a = c -> o = 0%Z /\ w2 f = 0%R).
  { intro Q. split.
    - unfold o. destruct Q as [Q|[Q|Q]]; rewrite Q; clear; unfold orient, orient_det; ring.
    - apply Z0. destruct Q as [Q|[Q|Q]].
      + rewrite Q in Ha. rewrite Hb in Ha. injection Ha as <-. ring.
      + rewrite Q in Hb. rewrite Hc in Hb. injection Hb as <-. rewrite (sub_self _ _ NB1), (sub_self _ _ NB2). ring.
      + rewrite Q in Ha. rewrite Hc in Ha. injection Ha as <-. rewrite (sub_self _ _ NA1), (sub_self _ _ NA2). ring. }
  destruct (Nat.eq_dec a b) as [E1|E1]; [destruct DEG as [-> ->]; auto; split; [lia|split; [lia|auto]]|].
  destruct (Nat.eq_dec b c) as [E2|E2]; [destruct DEG as [-> ->]; auto; split; [lia|split; [lia|auto]]|].
  destruct (Nat.eq_dec a c) as [E3|E3]; [destruct DEG as [-> ->]; auto; split; [lia|split; [lia|auto]]|].
  pose proof (orient_T a b c La Lb Lc E1 E2 E3) as [O1 O2]. fold o in O1, O2. pose proof (T_nocol a b c La Lb Lc E1 E2 E3) as NZ.
  split; [|split].
  - intro H. apply O1 in H. assert (H' : (1 <= orient (T a) (T b) (T c))%Z) by lia. apply IZR_le in H'. lra.
  - intro H. apply O2 in H. assert (H' : (orient (T a) (T b) (T c) <= -1)%Z) by lia. apply IZR_le in H'. lra.
  - intro H. lia.
Qed.
Lemma int_scan : scan_exact ps.
Proof.
  intros a b c d pa pb pc pd Pa Pb Pc Pd. apply FrontInv.pt_nth in Pa, Pb, Pc, Pd.
  destruct v_eps as (FE & _ & FN & _). destruct (eps_w2 e EB) as [VE VN].
  unfold in_scan_area. cbv zeta.
  destruct (det_sign a d b pa pd pb _ Pa Pd Pb (or_introl eq_refl)) as (F1 & P1 & N1 & Z1).
  destruct (det_sign a d c pa pd pc _ Pa Pd Pc (or_introl eq_refl)) as (F2 & P2 & N2 & Z2).
  change (@f_sub F64) with (SFsub 53 1024). change (@f_mul F64) with (SFmul 53 1024).
  set (f1 := SFsub 53 1024 (SFmul _ _ _ (SFsub _ _ (py pd) (py pb))) _) in *. set (f2 := SFsub 53 1024 (SFmul _ _ _ (SFsub _ _ (py pd) (py pc))) _) in *.
  pose proof (fle_w (e + e) (@f_neg_eps F64) f1 FN F1) as L1. pose proof (fle_w (e + e) f2 (@f_eps F64) F2 FE) as L2.
  destruct (@f_le F64 f_neg_eps f1).
  - split; [discriminate|]. intros [Q _]. exfalso. specialize (N1 Q). pose proof (proj1 L1 eq_refl). lra.
  - destruct (Z.lt_trichotomy (orient (zc ps a) (zc ps d) (zc ps b)) 0) as [Q|[Q|Q]].
    + destruct (@f_le F64 f2 f_eps).
      * split; [discriminate|]. intros [_ Q2]. exfalso. specialize (P2 Q2). pose proof (proj1 L2 eq_refl). lra.
      * split; auto. intros _. split; auto. destruct (Z.lt_trichotomy (orient (zc ps a) (zc ps d) (zc ps c)) 0) as [Q2|[Q2|Q2]]; auto; exfalso; [specialize (N2 Q2)|specialize (Z2 Q2)]; (assert (X : false = true) by (apply L2; lra); discriminate).
    + exfalso. specialize (Z1 Q). assert (X : false = true) by (apply L1; lra). discriminate.
    + exfalso. specialize (P1 Q). assert (X : false = true) by (apply L1; lra). discriminate.
Qed.

(** *** the comparison with EPSILON *)
Lemma x_bound i p : nth_error (ps_points ps) i = Some p -> ffin (px p) /\ (Rabs (w (px p)) <= 131073)%R.
Proof. intro H. destruct (pts_near i p H) as [N1 _]. split; [apply N1|apply (near_bound e _ _ N1)]. Qed.
Lemma add_eps i p : nth_error (ps_points ps) i = Some p -> ffin (SFadd 53 1024 (px p) (@f_eps F64)) /\ w (SFadd 53 1024 (px p) (@f_eps F64)) = rn e (w (px p) + w (@f_eps F64))%R.
Proof. intro H. destruct (x_bound i p H) as [F B]. destruct v_eps as (FE & _ & _). pose proof (eps_w1 e EB). apply add_w; auto; [apply e1; exact EB|lra|]. apply Rabs_le. lra. Qed.
Lemma int_eps_ok : eps_ok ps.
Proof.
  intros a b pa pb Ha Hb Q. rewrite (zc_pt _ _ Ha), (zc_pt _ _ Hb) in Q. unfold zp in Q. cbn [fst] in Q. change (@zv F64 F64_exact) with (sf_zv 53 1024) in Q.
  destruct (x_bound a pa Ha) as [Fa _], (x_bound b pb Hb) as [Fb _], (add_eps b pb Hb) as [FB VB].
  apply (fle_w e _ _ Fa FB). change (@f_add F64) with (SFadd 53 1024). rewrite VB.
  assert (V : w (px pa) = w (px pb)) by (apply Rle_antisym; apply (zw_le e); auto; lia).
  pose proof (eps_w1 e EB). rewrite V, <- (rn_id e _ Fb) at 1. apply rn_mono. lra.
Qed.
Lemma x_gap a b pa pb : nth_error (ps_points ps) a = Some pa -> nth_error (ps_points ps) b = Some pb -> (w (px pb) < w (px pa) -> w (px pb) + / 20 <= w (px pa))%R.
Proof.
  intros Ha Hb L. pose proof (pts_near a pa Ha) as [(_ & NA & _) _]. pose proof (pts_near b pb Hb) as [(_ & NB & _) _]. apply Rabs_le_inv in NA, NB. unfold dl in *.
  destruct (Z.lt_trichotomy (fst (T b)) (fst (T a))) as [Q|[Q|Q]].
  - assert (Q' : (fst (T b) + 1 <= fst (T a))%Z) by lia. apply IZR_le in Q'. rewrite plus_IZR in Q'. lra.
  - exfalso. destruct box as [BX _].
    assert (EX : forall i, i < n -> (10 * xlo <= fst (T i) <= 10 * xhi)%Z).
    { intros i Li. rewrite (T_in i Li). cbn [fst]. assert (I' : In (fst (nth i zs (0, 0)%Z)) (map fst zs)) by (apply in_map, nth_In; exact Li). assert (NE : map fst zs <> []) by (intro Q'; rewrite Q' in I'; destruct I').
      pose proof (proj2 (least_ok _ NE) _ I'). pose proof (proj2 (greatest_ok _ NE) _ I'). lia. }
    pose proof (f_equal fst T_head) as TH. pose proof (f_equal fst T_tail) as TT. cbn [fst] in TH, TT.
    destruct (ps_cases a pa Ha) as [[La _]|[[Ea Qa]|[Ea Qa]]], (ps_cases b pb Hb) as [[Lb _]|[[Eb Qb]|[Eb Qb]]];
      try (rewrite Ea in Q); try (rewrite Eb in Q); try (pose proof (EX a La)); try (pose proof (EX b Lb)); try lia.
    + destruct (pts_exact a pa La Ha) as [Va _]. destruct (pts_exact b pb Lb Hb) as [Vb _]. rewrite (T_in a La), (T_in b Lb) in Q. cbn [fst] in Q.
      assert (Q' : fst (nth b zs (0, 0)%Z) = fst (nth a zs (0, 0)%Z)) by lia. rewrite Va, Vb, Q' in L. lra.
    + subst pa pb. lra.
    + subst pa pb. lra.
  - assert (Q' : (fst (T a) + 1 <= fst (T b))%Z) by lia. apply IZR_le in Q'. rewrite plus_IZR in Q'. lra.
Qed.
Lemma int_fills : exact_fills ps.
Proof.
  constructor.
  - intros a b pa pb Ha Hb Q. rewrite (zc_pt _ _ Ha), (zc_pt _ _ Hb). unfold zp. cbn [fst]. change (@zv F64 F64_exact) with (sf_zv 53 1024).
    destruct (x_bound a pa Ha) as [Fa Ba], (x_bound b pb Hb) as [Fb Bb], (add_eps b pb Hb) as [FB VB].
    apply (fle_w e _ _ Fa FB) in Q. change (@f_add F64) with (SFadd 53 1024) in Q. rewrite VB in Q. apply (zw_le e); auto. apply Rnot_lt_le. intro L.
    pose proof (x_gap a b pa pb Ha Hb L) as G.
    assert (E : (Rabs (rn e (w (px pb) + w (@f_eps F64)) - (w (px pb) + w (@f_eps F64))) <= / 8589934592)%R) by (apply (rnd_20 e EB); pose proof (eps_w1 e EB); apply Rabs_le; apply Rabs_le_inv in Bb; lra).
    pose proof (eps_w1 e EB). apply Rabs_le_inv in E. lra.
  - intros o a b po pa pb Ho Ha Hb Q.
    destruct (det_sign a b o pa pb po _ Ha Hb Ho (or_intror eq_refl)) as (F & _ & N1 & _).
    destruct (Z_lt_le_dec (orient (zc ps o) (zc ps a) (zc ps b)) 0) as [L|L]; auto. exfalso.
    assert (R : orient (zc ps o) (zc ps a) (zc ps b) = orient (zc ps a) (zc ps b) (zc ps o)) by (destruct (zc ps o), (zc ps a), (zc ps b); unfold orient, orient_det; cbn [fst snd]; ring).
    rewrite R in L. specialize (N1 L). destruct v_zero as [FZ _]. pose proof (v_zero2 e) as VZ.
    unfold is_negative in Q. set (f := SFsub 53 1024 (SFmul _ _ _ _) (SFmul _ _ (SFsub _ _ (py pa) _) _)) in *.
    change (dy (angle_new po pa pb)) with f in Q.
    pose proof (flt_w (e + e) f (@f_zero F64) F FZ) as LT. rewrite VZ in LT. pose proof (feq_w (e + e) f (@f_zero F64) F FZ) as EQ. rewrite VZ in EQ.
    assert (LT' : @f_lt F64 f f_zero = true) by (apply LT; lra). assert (EQ' : @f_eq F64 f f_zero = false) by (destruct (@f_eq F64 f f_zero); auto; pose proof (proj1 EQ eq_refl); lra).
    rewrite EQ', LT', andb_false_r in Q. destruct (@f_le F64 f_zero (dx (angle_new po pa pb))) in Q; discriminate.
Qed.
End Int.
