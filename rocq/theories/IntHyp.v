(** * IntHyp: the hypotheses of the theorems on f64 runs hold for fixed-point inputs *)
From Coq Require Import List Arith Bool Lia ZArith Permutation.
From Coq.Floats Require Import SpecFloat.
From Verif Require Import Base Num Shape ShapeSpec Utils Points Triangles Front Sweeper Cdt F64 Lists BuilderSpec History SortSpec Monad Traverse TraceSpec Grow
  Exact F64Exact FloatLaws Spec PropsBuilder PropsTrace PropsSafe FrontSpec Geom Mesh Setup Good Init Winding CoverRun Stokes Region PropsMesh PropsCover PropsMarks PropsRegion FillTotal Local PropsTotal PropsCup PropsTri IntSpec IntRun.
Import ListNotations.

(** ** scaling *)
Lemma cr_scaled K u v p : (0 < K)%Z -> cr (scaled K u) (scaled K v) (scaled K p) = cr u v p.
Proof.
  intro H. unfold cr. rewrite orient_scaled. unfold scaled. cbn [fst].
  assert (L : forall a b, (K * a <=? K * b)%Z = (a <=? b)%Z) by (intros; destruct (Z.leb_spec (K * a) (K * b)), (Z.leb_spec a b); auto; nia).
  assert (T : forall a b, (K * a <? K * b)%Z = (a <? b)%Z) by (intros; destruct (Z.ltb_spec (K * a) (K * b)), (Z.ltb_spec a b); auto; nia).
  rewrite !L, !T. assert (KP : (0 < K * K)%Z) by nia.
  assert (O1 : forall o, (0 <=? K * K * o)%Z = (0 <=? o)%Z) by (intros; destruct (Z.leb_spec 0 (K * K * o)), (Z.leb_spec 0 o); auto; nia).
  assert (O2 : forall o, (K * K * o <=? 0)%Z = (o <=? 0)%Z) by (intros; destruct (Z.leb_spec (K * K * o) 0), (Z.leb_spec o 0); auto; nia).
  rewrite O1, O2. reflexivity.
Qed.
Lemma wind_ext z z' c p : (forall v, In v c -> z v = z' v) -> wind z c p = wind z' c p.
Proof. intro H. unfold wind. apply zsuml_ext. intros e Ie. apply cyc_in in Ie as [I1' I2']. rewrite (H _ I1'), (H _ I2'). reflexivity. Qed.
Lemma wind_scaled K z c p : (0 < K)%Z -> wind (fun v => scaled K (z v)) c (scaled K p) = wind z c p.
Proof. intro H. unfold wind. apply zsuml_ext. intros e _. apply cr_scaled. exact H. Qed.
Lemma scaled_scaled a b z : scaled a (scaled b z) = scaled (a * b) z.
Proof. unfold scaled. cbn [fst snd]. f_equal; ring. Qed.
Lemma area2_scaled K z z' c : (forall v, In v c -> z v = scaled K (z' v)) -> area2 z c = (K * K * area2 z' c)%Z.
Proof.
  intro H. unfold area2. assert (G : forall l, (forall e, In e l -> In (fst e) c /\ In (snd e) c) -> zsuml (fun e => cross2 (z (fst e)) (z (snd e))) l = (K * K * zsuml (fun e => cross2 (z' (fst e)) (z' (snd e))) l)%Z).
  { induction l as [|e l IH]; intro Hl; [cbn; ring|]. unfold zsuml in *. cbn [fold_right]. rewrite IH by (intros; apply Hl; right; auto).
    destruct (Hl e (or_introl eq_refl)) as [I1' I2']. rewrite (H _ I1'), (H _ I2'). unfold cross2, scaled. cbn [fst snd]. ring. }
  apply G. intros e Ie. apply cyc_in. exact Ie.
Qed.

(** ** the polylines in the list of points *)
Section H.
Context {A : Arith}.
Variable PD : Type.
Lemma holes_slices l : forall pre s, In s l -> exists k, In (seq k (length (fst s))) (holes_contours PD (length pre) l) /\
  forall i a, nth_error (fst s) i = Some a -> nth_error (pre ++ flat_map fst l) (k + i) = Some a.
Proof.
  induction l as [|s0 l IH]; intros pre s [].
  - subst s0. exists (length pre). split; [left; reflexivity|]. intros i a H. rewrite nth_error_app2 by lia. replace (length pre + i - length pre) with i by lia. cbn [flat_map]. rewrite nth_error_app1; auto. eapply nth_error_lt; eauto.
  - destruct (IH (pre ++ fst s0) s H) as (k & I' & G). rewrite app_length in I'. exists k. split; [right; exact I'|]. intros i a Q. apply G in Q. cbn [flat_map]. rewrite app_assoc. exact Q.
Qed.
Lemma calls_slices calls : forall pre l, In l (flat_map (call_polylines PD) calls) -> exists k, In (seq k (length l)) (calls_contours PD (length pre) calls) /\
  forall i a, nth_error l i = Some a -> nth_error (pre ++ flat_map (call_points PD) calls) (k + i) = Some a.
Proof.
  induction calls as [|c calls IH]; intros pre l I'; [destruct I'|]. cbn [flat_map] in I'. apply in_app_or in I' as [I'|I'].
  - assert (G : exists k, In (seq k (length l)) (call_contours PD (length pre) c) /\ forall i a, nth_error l i = Some a -> nth_error (pre ++ call_points PD c) (k + i) = Some a).
    { destruct c as [s|ls|p d|s]; cbn [call_polylines] in I'; try (destruct I'; fail).
      - destruct I' as [<-|[]]. exists (length pre). split; [left; reflexivity|]. intros i a H. rewrite nth_error_app2 by lia. replace (length pre + i - length pre) with i by lia. exact H.
      - apply in_map_iff in I' as (s & <- & I'). apply (holes_slices ls pre s I'). }
    destruct G as (k & I1' & G). exists k. split; [cbn [calls_contours]; apply in_or_app; auto|]. intros i a H. apply G in H. cbn [flat_map]. rewrite app_assoc. rewrite nth_error_app1; auto. eapply nth_error_lt; eauto.
  - destruct (IH (pre ++ call_points PD c) l I') as (k & I1' & G). rewrite app_length in I1'. exists k. split; [cbn [calls_contours]; apply in_or_app; auto|].
    intros i a H. apply G in H. cbn [flat_map]. rewrite app_assoc. exact H.
Qed.
Lemma slices src calls l : In l (history_polylines PD src calls) -> exists k, In (seq k (length l)) (outer_contour PD src :: hole_contours PD src calls) /\
  forall i a, nth_error l i = Some a -> nth_error (history_points PD src calls) (k + i) = Some a.
Proof.
  intros [<-|I'].
  - exists 0. split; [left; reflexivity|]. intros i a H. unfold history_points. cbn [Nat.add]. rewrite nth_error_app1; auto. eapply nth_error_lt; eauto.
  - destruct (calls_slices calls (fst src) l I') as (k & I1' & G). exists k. split; [right; exact I1'|exact G].
Qed.
End H.

(** the holes lie inside the outer polygon and do not overlap; a Steiner point, that is a point on no contour, is inside the
    outer polygon, or has another input point strictly to the left of it and not below it *)
Definition holes_inside (zs : list zpt) (poly : list nat) (holes : list (list nat)) : Prop := forall k p h, (0 < k)%Z -> In h holes ->
  wind (fun v => scaled k (zat zs v)) h p <> 0%Z ->
  wind (fun v => scaled k (zat zs v)) poly p <> 0%Z /\ forall h', In h' holes -> h' <> h -> wind (fun v => scaled k (zat zs v)) h' p = 0%Z.
Definition loose_points_allowed (zs : list zpt) (poly : list nat) (holes : list (list nat)) : Prop := forall v, v < length zs ->
  (forall c, In c (poly :: holes) -> ~ In v c) -> wind (zat zs) poly (zat zs v) <> 0%Z \/
  exists q, q < length zs /\ (fst (zat zs q) < fst (zat zs v))%Z /\ (snd (zat zs v) <= snd (zat zs q))%Z.

Section Int.
Variable PD : Type.
Variable src : @source F64 PD.
Variable calls : list (@call F64 PD).
Variable ue : Z.
Variable zs : list zpt.
Hypothesis UB : unit_ok ue.
Hypothesis HP : history_points PD src calls = map (grid ue) zs.
Hypothesis IN : integer_input zs.
Notation KK := (2 ^ (1074 + ue))%Z.
Lemma KK_pos : (0 < KK)%Z. Proof using UB. apply Z.pow_pos_nonneg; unfold unit_ok in UB; lia. Qed.
Notation n := (length zs).
Notation z := (zat zs).
Notation poly := (outer_contour PD src).
Notation holes := (hole_contours PD src calls).

Lemma len_hp : length (history_points PD src calls) = n.
Proof. rewrite HP. apply map_length. Qed.

(** the builder does not panic *)
Lemma int_builder : (forall c, In c (poly :: holes) -> 3 <= length c) -> exists b, builder_of PD src calls = Done b.
Proof.
  intro L3. destruct (C03_builder_panics_iff_repeated_vertex_f64 PD src calls) as [[R _]|[_ H]]; auto. exfalso.
  apply Exists_exists in R as (l & Il & i & a & b & H1 & H2 & H3). destruct (slices PD src calls l Il) as (k & Ic & G).
  apply L3 in Ic. rewrite seq_length in Ic. pose proof (nth_error_lt _ _ _ H1) as Li. apply G in H1, H2.
  set (ps := points_new (map (grid ue) zs) []). pose proof (int_proper ue UB zs [] IN) as PP. fold ps in PP.
  assert (X : forall j x, nth_error (history_points PD src calls) j = Some x -> j < npts ps /\ zc ps j = zp x /\ finp x).
  { intros j x H. assert (H' : nth_error (ps_points ps) j = Some x) by (unfold ps, points_new; cbn [ps_points]; rewrite <- HP; rewrite nth_error_app1; auto; eapply nth_error_lt; eauto).
    split; [eapply nth_error_lt; eauto|]. split; [unfold zc; rewrite H'; reflexivity|]. pose proof (pr_fin ps PP) as F. rewrite Forall_forall in F. apply F. eapply nth_error_In; eauto. }
  destruct (X _ _ H1) as (L1 & Z1 & [F1 F1']), (X _ _ H2) as (L2 & Z2 & [F2 F2']).
  unfold point_eq in H3. apply andb_true_iff in H3 as [Q1 Q2]. rewrite x_eq in Q1, Q2 by assumption. apply Z.eqb_eq in Q1, Q2.
  assert (Q : k + i = k + S i mod length l). { apply (pr_inj ps PP); auto. rewrite Z1, Z2. unfold zp. congruence. }
  destruct (Nat.eq_dec (S i) (length l)) as [E|NE]; [rewrite E, Nat.mod_same in Q by lia; lia|rewrite Nat.mod_small in Q by lia; lia].
Qed.

Variable b : @Builder F64 PD.
Hypothesis B : builder_of PD src calls = Done b.
Notation ps := (c_points (build PD b)).
Lemma ps_new : exists es, ps = points_new (map (grid ue) zs) es.
Proof. destruct (builder_of_points PD src calls b B) as (B1 & _ & _). exists (pb_edges (bd_points b)). rewrite <- HP, <- B1. reflexivity. Qed.
Lemma i_proper : proper ps. Proof. destruct ps_new as [es ->]. apply int_proper; [exact UB|exact IN]. Qed.
Lemma i_zc v : v < n -> zc ps v = scaled KK (z v).
Proof. destruct ps_new as [es ->]. intro L. rewrite (zc_input ue UB zs es IN v L). reflexivity. Qed.
Lemma i_head : ps_head ps = n. Proof. destruct ps_new as [es ->]. apply head_id. Qed.
Lemma i_edge e : In e (history_edges PD src calls) -> fst e < n /\ snd e < n.
Proof.
  intro I'. destruct (History.builder_of_edges PD src calls b F64_eq_not_lt F64_eq_sym B) as (_ & RG & _).
  destruct (builder_of_points PD src calls b B) as (B1 & _ & _). pose proof (apart_lt _ e (RG e I')) as H. rewrite B1, len_hp in H. exact H.
Qed.
Lemma i_plane : edges_apart zs (history_edges PD src calls) -> plane_input ps (history_edges PD src calls).
Proof.
  intro EA. constructor.
  - destruct ps_new as [es ->]. apply int_nocol; [exact UB|exact IN].
  - destruct ps_new as [es ->]. apply int_scan; [exact UB|exact IN].
  - intros e e' I1' I2' [X1 X2]. destruct (i_edge e I1') as [L1 L2], (i_edge e' I2') as [L3 L4]. rewrite !i_zc in X1, X2 by assumption. rewrite !orient_scaled in X1, X2.
    apply (EA e e' I1' I2'). pose proof KK_pos as K. revert X1 X2 K. generalize KK. intros K X1 X2 K0.
    assert (P : (0 < K * K)%Z) by (apply Z.mul_pos_pos; auto). assert (P2 : (0 < (K * K) * (K * K))%Z) by (apply Z.mul_pos_pos; auto).
    assert (G : forall x y, (K * K * x * (K * K * y) < 0 -> x * y < 0)%Z).
    { intros x y H. destruct (Z_lt_le_dec (x * y) 0); auto. assert (0 <= (K * K) * (K * K) * (x * y))%Z by (apply Z.mul_nonneg_nonneg; lia). lia. }
    split; apply G; assumption.
Qed.
Lemma i_eps : eps_ok ps. Proof. destruct ps_new as [es ->]. apply int_eps_ok; [exact UB|exact IN]. Qed.
Lemma i_fills : exact_fills ps. Proof. destruct ps_new as [es ->]. apply int_fills; [exact UB|exact IN]. Qed.
Lemma i_contour c v : In c (poly :: holes) -> In v c -> v < n.
Proof. intros Ic Iv. rewrite <- len_hp. exact (proj2 (contours_range PD src calls) c v Ic Iv). Qed.
Lemma i_winds c k p : In c (poly :: holes) -> winds ps c k p = wind (fun v => scaled (k * KK) (z v)) c p.
Proof. intro Ic. unfold winds. apply wind_ext. intros v Iv. rewrite i_zc, scaled_scaled; auto. apply (i_contour c); auto. Qed.
Lemma i_winds' c k p : In c (poly :: holes) -> winds ps c k (scaled KK p) = wind (fun v => scaled k (z v)) c p.
Proof.
  intro Ic. unfold winds. rewrite <- (wind_scaled KK (fun v => scaled k (z v)) c p KK_pos). apply wind_ext. intros v Iv. rewrite i_zc, !scaled_scaled, Z.mul_comm; auto. apply (i_contour c); auto.
Qed.

Lemma i_nested : holes_inside zs poly holes -> holes_nested ps poly holes.
Proof.
  intros H k p h K Ih W. rewrite i_winds in W by (right; exact Ih). pose proof KK_pos as KP.
  destruct (H (k * KK)%Z p h) as [H1 H2]; auto. { apply Z.mul_pos_pos; auto. }
  split; [rewrite i_winds by (left; reflexivity); exact H1|]. intros h' Ih' NE. rewrite i_winds by (right; exact Ih'). auto.
Qed.
Lemma i_steiner : loose_points_allowed zs poly holes -> steiner_allowed PD ps src calls.
Proof.
  intros H v Lv Nv. rewrite len_hp in *. destruct (H v Lv Nv) as [H1|(q & Lq & X & Y)].
  - left. rewrite (i_zc v Lv), i_winds' by (left; reflexivity).
    rewrite (wind_ext _ z) by (intros u _; unfold scaled; destruct (z u); cbn [fst snd]; f_equal; ring). exact H1.
  - right. exists q. split; [exact Lq|]. rewrite (i_zc v Lv), (i_zc q Lq). pose proof KK_pos as KP. unfold scaled. cbn [fst snd]. split; [apply Z.mul_lt_mono_pos_l|apply Z.mul_le_mono_nonneg_l]; [exact KP|exact X|lia|exact Y].
Qed.
Lemma i_orient i j k : i < n -> j < n -> k < n -> orient (zc ps i) (zc ps j) (zc ps k) = (KK * KK * orient (z i) (z j) (z k))%Z.
Proof. intros. rewrite !i_zc by assumption. apply orient_scaled. Qed.
Lemma i_fst i : i < n -> fst (zc ps i) = (KK * fst (z i))%Z. Proof. intro. rewrite i_zc by assumption. reflexivity. Qed.
Lemma i_snd i : i < n -> snd (zc ps i) = (KK * snd (z i))%Z. Proof. intro. rewrite i_zc by assumption. reflexivity. Qed.
Lemma mul_sgn K x : (0 < K)%Z -> ((0 < K * x <-> 0 < x) /\ (K * x < 0 <-> x < 0) /\ (0 <= K * x <-> 0 <= x) /\ (K * x <= 0 <-> x <= 0))%Z.
Proof. intro P. repeat split; intro H; nia. Qed.
Lemma i_upper p q : input_edge ps p q -> (In (p, q) (history_edges PD src calls) \/ In (q, p) (history_edges PD src calls)) /\ ylt (z p) (z q).
Proof.
  intro I'. pose proof (input_edge_history PD src calls b p q F64_eq_not_lt F64_eq_sym B I') as IH. split; auto.
  assert (L : p < n /\ q < n) by (destruct IH as [H|H]; apply i_edge in H; cbn [fst snd] in H; tauto). destruct L as [Lp Lq].
  destruct I' as (e & He & Hp). destruct (History.builder_of_edges PD src calls b F64_eq_not_lt F64_eq_sym B) as (_ & _ & P).
  change (ps_edges ps) with (pb_edges (bd_points b) ++ [ENone; ENone]) in He.
  assert (He' : nth_error (pb_edges (bd_points b)) q = Some e).
  { destruct (Nat.lt_ge_cases q (length (pb_edges (bd_points b)))) as [Lq'|Lq']; [rewrite nth_error_app1 in He; auto|]. exfalso.
    rewrite nth_error_app2 in He by auto. destruct (q - length (pb_edges (bd_points b))) as [|[|k]]; simpl in He; try (injection He as <-; exact Hp). destruct k; discriminate. }
  assert (I2' : In (mkEdge p q) (BuilderSpec.stored (pb_edges (bd_points b)))).
  { unfold BuilderSpec.stored. apply in_flat_map. exists (q, e). split; [apply enumerate_in; auto|]. unfold stored_at. simpl. apply in_map_iff. eauto. }
  apply (Permutation_in _ P) in I2'. apply in_map_iff in I2' as ([i j] & Q & IJ). pose proof (i_edge _ IJ) as [Li Lj]. cbn [fst snd] in Li, Lj.
  pose proof i_proper as PP. pose proof (pr_head ps PP) as PH. rewrite i_head in PH.
  destruct (builder_of_points PD src calls b B) as (B1 & _ & _). assert (LB : length (pb_points (bd_points b)) = n) by (rewrite B1; apply len_hp).
  assert (X : forall v, v < n -> exists x, nth_error (pb_points (bd_points b)) v = Some x /\ zc ps v = zp x /\ finp x).
  { intros v Lv. destruct (nth_error_ex (pb_points (bd_points b)) v) as [x Hx]; [lia|]. exists x. split; auto.
    assert (Hx' : nth_error (ps_points ps) v = Some x) by (change (ps_points ps) with (pb_points (bd_points b) ++ [head_point (pb_points (bd_points b)); tail_point (pb_points (bd_points b))]); rewrite nth_error_app1; auto; lia).
    split; [unfold zc; rewrite Hx'; reflexivity|]. pose proof (pr_fin ps PP) as F. rewrite Forall_forall in F. apply F. eapply nth_error_In; eauto. }
  destruct (X i Li) as (xi & Hi & Zi & Fi), (X j Lj) as (xj & Hj & Zj & Fj). unfold lower_first in Q. cbn [fst snd] in Q. rewrite Hi, Hj in Q.
  assert (NE : i <> j).
  { intros ->. destruct (History.builder_of_edges PD src calls b F64_eq_not_lt F64_eq_sym B) as (_ & RG & _). destruct (RG _ IJ) as (a1 & a2 & A1 & A2 & A3). cbn [fst snd] in A1, A2. rewrite Hj in A1, A2. injection A1 as <-. injection A2 as <-.
    apply A3. destruct Fj as [F1 F2]. unfold coincide. rewrite !x_eq by assumption. rewrite !Z.eqb_refl. auto. }
  assert (Y : ylt (zc ps p) (zc ps q)).
  { destruct (y_less xj xi) eqn:Y; injection Q as <- <-.
    - rewrite Zi, Zj. apply y_less_exact; auto.
    - assert (N1 : ~ ylt (zp xj) (zp xi)) by (rewrite <- y_less_exact by auto; congruence).
      assert (N2 : zp xi <> zp xj) by (rewrite <- Zi, <- Zj; intro Q'; apply NE; apply (pr_inj ps PP); auto; lia).
      rewrite Zi, Zj. unfold ylt in *. destruct (zp xi) as [a1 a2], (zp xj) as [b1 b2]. cbn [fst snd] in *.
      destruct (Z.lt_trichotomy a2 b2) as [|[->|]]; auto; [|exfalso; apply N1; auto]. right. split; auto. destruct (Z.lt_trichotomy a1 b1) as [|[->|]]; auto; [congruence|exfalso; apply N1; auto]. }
  unfold ylt in *. rewrite !i_fst, !i_snd in Y by assumption. pose proof KK_pos. revert Y H. generalize KK. intros K Y H. nia.
Qed.
Lemma i_cap_of : forall p q, input_edge ps p q -> convex_below ps p q -> capped zs p q.
Proof.
  intros p q I' (X & u & Lu & v & Lv & w & Lw & C1 & C2 & C3 & C4 & C5 & C6 & C7 & C8). destruct (i_upper p q I') as [IH Y].
  assert (L : p < n /\ q < n) by (destruct IH as [Q|Q]; apply i_edge in Q; cbn [fst snd] in Q; tauto). destruct L as [Lp Lq].
  rewrite i_head in Lu, Lv, Lw. rewrite !i_fst in X, C1, C2, C3, C4 by assumption. rewrite !i_orient in C5, C6, C7, C8 by assumption.
  pose proof KK_pos as K. revert X C1 C2 C3 C4 C5 C6 C7 C8 K. generalize KK. intros K X C1 C2 C3 C4 C5 C6 C7 C8 K0.
  assert (P : (0 < K * K)%Z) by (apply Z.mul_pos_pos; auto).
  apply (proj1 (proj2 (proj2 (proj2 (mul_sgn _ _ P))))) in C5, C8. apply (proj1 (proj1 (mul_sgn _ _ P))) in C6, C7.
  assert (LT : forall x y, (K * x < K * y -> x < y)%Z) by (intros; nia). apply LT in X, C2, C3, C4. assert (LE : forall x y, (K * x <= K * y -> x <= y)%Z) by (intros; nia). apply LE in C1.
  unfold capped. split; [exact Y|]. split; [exact X|]. exists u, v, w. repeat (split; [assumption|]). assumption.
Qed.
Lemma i_cap : (forall p q, In (p, q) (history_edges PD src calls) \/ In (q, p) (history_edges PD src calls) -> ~ capped zs p q) -> forall p q, input_edge ps p q -> ~ convex_below ps p q.
Proof. intros H p q I' C. exact (H p q (proj1 (i_upper p q I')) (i_cap_of p q I' C)). Qed.
Lemma i_region ids : fills_region n (zc ps) poly holes ids -> fills_region n z poly holes ids.
Proof.
  intros (H0 & H1 & H2 & H3 & H4 & H5).
  assert (R : forall a b c, In (a, b, c) (triples ids) -> a < n /\ b < n /\ c < n) by (intros x y w I'; apply H1; exact I').
  pose proof KK_pos as KP. assert (KP2 : (0 < KK * KK)%Z) by (apply Z.mul_pos_pos; auto).
  assert (PI : forall t k p, In t (triples ids) -> (0 < k)%Z -> point_in z t k p <-> point_in (zc ps) t k (scaled KK p)).
  { intros [[x y] w] k p I' K. destruct (R _ _ _ I') as (L1 & L2 & L3). unfold point_in, strictly_inside. rewrite !i_zc by assumption.
    assert (SW : forall a, scaled k (scaled KK a) = scaled KK (scaled k a)) by (intro a; rewrite !scaled_scaled, Z.mul_comm; reflexivity).
    rewrite !SW, !orient_scaled. pose proof (proj1 (mul_sgn (KK * KK) (orient (scaled k (z x)) (scaled k (z y)) p) KP2)). pose proof (proj1 (mul_sgn (KK * KK) (orient (scaled k (z y)) (scaled k (z w)) p) KP2)). pose proof (proj1 (mul_sgn (KK * KK) (orient (scaled k (z w)) (scaled k (z x)) p) KP2)). tauto. }
  assert (PO : forall t k p, In t (triples ids) -> (0 < k)%Z -> point_on z t k p <-> point_on (zc ps) t k (scaled KK p)).
  { intros [[x y] w] k p I' K. destruct (R _ _ _ I') as (L1 & L2 & L3). unfold point_on, inside_or_on. rewrite !i_zc by assumption.
    assert (SW : forall a, scaled k (scaled KK a) = scaled KK (scaled k a)) by (intro a; rewrite !scaled_scaled, Z.mul_comm; reflexivity).
    rewrite !SW, !orient_scaled. pose proof (proj1 (proj2 (proj2 (mul_sgn (KK * KK) (orient (scaled k (z x)) (scaled k (z y)) p) KP2)))). pose proof (proj1 (proj2 (proj2 (mul_sgn (KK * KK) (orient (scaled k (z y)) (scaled k (z w)) p) KP2)))). pose proof (proj1 (proj2 (proj2 (mul_sgn (KK * KK) (orient (scaled k (z w)) (scaled k (z x)) p) KP2)))). tauto. }
  assert (WP : forall c k p, In c (poly :: holes) -> wind (fun v => scaled k (zc ps v)) c (scaled KK p) = wind (fun v => scaled k (z v)) c p) by (intros c k p Ic; exact (i_winds' c k p Ic)).
  unfold fills_region. cbv zeta. split; [exact H0|]. split; [|split; [|split; [|split]]].
  - intros x y w I'. destruct (H1 x y w I') as [L O]. split; auto. destruct L as (L1 & L2 & L3). rewrite i_orient in O by assumption. exact (proj1 (proj1 (mul_sgn _ _ KP2)) O).
  - intros i j t u k p K Hi Hj P1 P2. apply (H2 i j t u k (scaled KK p) K Hi Hj).
    + apply PI; auto. eapply nth_error_In; eauto.
    + apply PI; auto. eapply nth_error_In; eauto.
  - intros t k p It K P1. apply PI in P1; auto. destruct (H3 t k (scaled KK p) It K P1) as [W1 W2]. rewrite WP in W1 by (left; reflexivity). split; auto.
    intros h Ih. rewrite <- WP by (right; exact Ih). auto.
  - intros k p K W1 W2. destruct (H4 k (scaled KK p) K) as (t & It & On).
    + rewrite WP by (left; reflexivity). exact W1.
    + intros h Ih. rewrite WP by (right; exact Ih). auto.
    + exists t. split; auto. apply PO; auto.
  - assert (AR : forall c, In c (poly :: holes) -> area2 (zc ps) c = (KK * KK * area2 z c)%Z).
    { intros c Ic. apply area2_scaled. intros v Iv. apply i_zc. apply (i_contour c); auto. }
    assert (SUM : forall l, (forall a b c, In (a, b, c) l -> a < n /\ b < n /\ c < n) -> sum_triples (zc ps) l = (KK * KK * sum_triples z l)%Z).
    { induction l as [|[[x y] w] l IH]; intro Hl; [cbn [sum_triples fold_right]; ring|]. unfold sum_triples in *. cbn [fold_right]. rewrite IH by (intros; eapply Hl; right; eauto).
      destruct (Hl x y w (or_introl eq_refl)) as (L1 & L2 & L3). rewrite i_orient by assumption. ring. }
    rewrite (SUM _ R) in H5. rewrite (AR poly) in H5 by (left; reflexivity).
    assert (FO : forall hs, incl hs holes -> fold_right (fun h acc => (Z.abs (area2 (zc ps) h) + acc)%Z) 0%Z hs = (KK * KK * fold_right (fun h acc => (Z.abs (area2 z h) + acc)%Z) 0%Z hs)%Z).
    { induction hs as [|h hs IH]; intro Hl; [cbn [fold_right]; ring|]. cbn [fold_right]. rewrite IH by (intros x Ix; apply Hl; right; exact Ix).
      rewrite (AR h) by (right; apply Hl; left; reflexivity). rewrite Z.abs_mul, (Z.abs_eq (KK * KK)) by (apply Z.lt_le_incl; exact KP2). ring. }
    rewrite (FO holes (incl_refl _)), Z.abs_mul, (Z.abs_eq (KK * KK)), <- Z.mul_sub_distr_l in H5 by (apply Z.lt_le_incl; exact KP2).
    apply Z.mul_reg_l in H5; [exact H5|]. intro Q. rewrite Q in KP2. discriminate.
Qed.
End Int.

