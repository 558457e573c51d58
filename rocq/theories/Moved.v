(** * Moved: translating and enlarging an input

    p is moved to K p + t, with K > 0.  Everything the results are judged by is unchanged by this. *)
From Coq Require Import List Arith Bool Lia ZArith Permutation.
From Verif Require Import Base Num Shape ShapeSpec Lists Utils F64 Exact Geom Legal Winding CoverRun Stokes Region PropsTri IntSpec IntHyp PropsCdt PropsCdtInt.
Import ListNotations.
Local Open Scope Z_scope.

Definition moved (K : Z) (t p : zpt) : zpt := (K * fst p + fst t, K * snd p + snd t).

Lemma orient_moved K t a b c : orient (moved K t a) (moved K t b) (moved K t c) = K * K * orient a b c.
Proof. unfold moved. zpts. ring. Qed.
Lemma incircle_moved K t a b c d : incircle (moved K t a) (moved K t b) (moved K t c) (moved K t d) = K * K * (K * K) * incircle a b c d.
Proof. destruct a, b, c, d. unfold moved, incircle, incircle_det. cbn [fst snd]. ring. Qed.
Lemma moved_scaled k K t p : scaled k (moved K t p) = moved K (scaled k t) (scaled k p).
Proof. unfold scaled, moved. cbn [fst snd]. f_equal; ring. Qed.
Lemma cr_moved1 t u v p : cr (moved 1 t u) (moved 1 t v) (moved 1 t p) = cr u v p.
Proof.
  rewrite !cr_crx, orient_moved. unfold moved. cbn [fst]. f_equal; lia.
Qed.
Lemma moved_1_scaled K t p : moved K t p = moved 1 t (scaled K p).
Proof. unfold scaled, moved. cbn [fst snd]. f_equal; ring. Qed.
Lemma cr_moved K t u v p : 0 < K -> cr (moved K t u) (moved K t v) (moved K t p) = cr u v p.
Proof. intro H. rewrite !(moved_1_scaled K), cr_moved1. apply cr_scaled. exact H. Qed.
Lemma wind_moved K t z c p : 0 < K -> wind (fun v => moved K t (z v)) c (moved K t p) = wind z c p.
Proof. intro H. unfold wind. apply zsuml_ext. intros e _. apply cr_moved. exact H. Qed.
Lemma zsuml_add {X} (f g : X -> Z) l : zsuml (fun x => f x + g x) l = zsuml f l + zsuml g l.
Proof. unfold zsuml. induction l as [|x l IH]; cbn [fold_right]; [reflexivity|]. rewrite IH. ring. Qed.
Lemma area2_moved K t z z' c : (forall v, In v c -> z v = moved K t (z' v)) -> area2 z c = K * K * area2 z' c.
Proof.
  intro H. unfold area2.
  assert (Q : forall f : nat -> Z, zsuml (fun e => f (snd e) - f (fst e)) (cyc c) = 0).
  { intro f. rewrite zsuml_sub. rewrite <- (zsuml_map f snd), <- (zsuml_map f fst), cyc_fst. rewrite (zsuml_perm _ _ _ (cyc_snd c)). lia. }
  pose proof (Q (fun v => K * (fst t * snd (z' v) - fst (z' v) * snd t))) as Q1.
  rewrite <- zsuml_scale, <- (Z.add_0_r (zsuml _ (cyc c))), <- Q1 at 1. rewrite Z.add_comm.
  transitivity (zsuml (fun e => K * K * cross2 (z' (fst e)) (z' (snd e)) + (K * (fst t * snd (z' (snd e)) - fst (z' (snd e)) * snd t) - K * (fst t * snd (z' (fst e)) - fst (z' (fst e)) * snd t))) (cyc c)).
  2: { rewrite zsuml_add. rewrite Q1. lia. }
  rewrite Q1, Z.add_0_l. apply zsuml_ext. intros [x y] Ie. apply Stokes.cyc_in in Ie as [Ix Iy]. cbn [fst snd]. rewrite (H _ Ix), (H _ Iy). unfold cross2, moved. cbn [fst snd]. ring.
Qed.

Section Move.
Variables (n : nat) (z z' : nat -> zpt) (es : list (nat * nat)) (poly : list nat) (holes : list (list nat)) (K : Z) (t : zpt).
Hypothesis KP : 0 < K.
Hypothesis ZM : forall v, (v < n)%nat -> z' v = moved K t (z v).
Hypothesis RG : forall c v, In c (poly :: holes) -> In v c -> (v < n)%nat.
Hypothesis RE : forall x y, In (x, y) es -> (x < n /\ y < n)%nat.
Let KK2 : 0 < K * K. Proof. apply Z.mul_pos_pos; exact KP. Qed.
Lemma pos_KK o : 0 < K * K * o <-> 0 < o. Proof using KP. nia. Qed.
Lemma nonneg_KK o : 0 <= K * K * o <-> 0 <= o. Proof using KP. nia. Qed.
Lemma winds_moved c k p : In c (poly :: holes) -> wind (fun v => scaled k (z' v)) c (moved K (scaled k t) p) = wind (fun v => scaled k (z v)) c p.
Proof using KP ZM RG.
  intro Ic. rewrite <- (wind_moved K (scaled k t) (fun v => scaled k (z v)) c p KP). apply wind_ext. intros v Iv. rewrite (ZM v (RG c v Ic Iv)). apply moved_scaled.
Qed.
Lemma wind_moved' c p : In c (poly :: holes) -> wind z' c (moved K t p) = wind z c p.
Proof using KP ZM RG. intro Ic. rewrite <- (wind_1 z'), <- (wind_1 z). rewrite <- (winds_moved c 1 p Ic). f_equal. rewrite scaled_1. reflexivity. Qed.
Lemma move_region ids : fills_region n z' poly holes ids -> fills_region n z poly holes ids.
Proof using KP ZM RG.
  intros (H0 & H1 & H2 & H3 & H4 & H5).
  assert (R : forall a b c, In (a, b, c) (triples ids) -> (a < n /\ b < n /\ c < n)%nat) by (intros x y w I'; apply H1; exact I').
  assert (PI : forall u k p, In u (triples ids) -> point_in z u k p <-> point_in z' u k (moved K (scaled k t) p)).
  { intros [[x y] w] k p I'. destruct (R _ _ _ I') as (L1 & L2 & L3). unfold point_in, strictly_inside. rewrite !ZM, !moved_scaled, !orient_moved, !pos_KK by assumption. reflexivity. }
  assert (PO : forall u k p, In u (triples ids) -> point_on z u k p <-> point_on z' u k (moved K (scaled k t) p)).
  { intros [[x y] w] k p I'. destruct (R _ _ _ I') as (L1 & L2 & L3). unfold point_on, inside_or_on. rewrite !ZM, !moved_scaled, !orient_moved, !nonneg_KK by assumption. reflexivity. }
  split; [exact H0|]. split; [|split; [|split; [|split]]].
  - intros a b c I'. destruct (H1 a b c I') as [L O]. split; [exact L|]. destruct L as (La & Lb & Lc). rewrite !ZM, orient_moved, pos_KK in O by assumption. exact O.
  - intros i j u w k p K0 N1 N2 P1 P2. apply (H2 i j u w k (moved K (scaled k t) p) K0 N1 N2); (apply PI; [eapply nth_error_In; eauto|assumption]).
  - intros u k p I' K0 P. apply (PI u k p I') in P. destruct (H3 u k _ I' K0 P) as [A B]. split; [rewrite <- (winds_moved poly) by (left; reflexivity); exact A|].
    intros h Ih. rewrite <- (winds_moved h) by (right; exact Ih). apply B. exact Ih.
  - intros k p K0 A B. destruct (H4 k (moved K (scaled k t) p) K0) as (u & I' & P).
    + rewrite winds_moved by (left; reflexivity). exact A.
    + intros h Ih. rewrite winds_moved by (right; exact Ih). apply B. exact Ih.
    + exists u. split; [exact I'|]. apply PO; assumption.
  - assert (A : forall c, In c (poly :: holes) -> Z.abs (area2 z' c) = K * K * Z.abs (area2 z c)).
    { intros c Ic. rewrite (area2_moved K t z' z c) by (intros v Iv; apply ZM; eapply RG; eauto). rewrite Z.abs_mul, (Z.abs_eq (K * K)) by lia. reflexivity. }
    assert (S1 : forall l, (forall a b c, In (a, b, c) l -> (a < n /\ b < n /\ c < n)%nat) -> sum_triples z' l = K * K * sum_triples z l).
    { induction l as [|[[a b] c] l IH]; intro Hl; [cbn; ring|]. unfold sum_triples in *. cbn [fold_right]. rewrite IH by (intros; apply Hl; right; assumption).
      destruct (Hl a b c (or_introl eq_refl)) as (La & Lb & Lc). rewrite !ZM, orient_moved by assumption. ring. }
    assert (S2 : forall hs, (forall h, In h hs -> In h (poly :: holes)) -> fold_right (fun h acc => Z.abs (area2 z' h) + acc) 0 hs = K * K * fold_right (fun h acc => Z.abs (area2 z h) + acc) 0 hs).
    { induction hs as [|h hs IH]; intro Hh; [cbn; ring|]. cbn [fold_right]. rewrite IH by (intros; apply Hh; right; assumption). rewrite A by (apply Hh; left; reflexivity). ring. }
    rewrite S1, A, S2 in H5 by (intros; first [apply R; assumption|left; reflexivity|right; assumption]).
    apply (Z.mul_reg_l _ _ (K * K)); [lia|]. rewrite H5. ring.
Qed.
Lemma move_cdt ids : proper_cdt n z' es poly holes ids -> proper_cdt n z es poly holes ids.
Proof using All.
  intros (H1 & H2 & H3 & H4). split; [exact (move_region ids H1)|]. split; [|split; [exact H3|]].
  - intros a b c v k p IN Lv K0 PT VIS. destruct (proj1 (proj2 H1) a b c IN) as ((La & Lb & Lc) & _).
    specialize (H2 a b c v k (moved K (scaled k t) p) IN Lv K0). unfold point_in, strictly_inside in H2, PT. rewrite !ZM, incircle_moved, !moved_scaled, !orient_moved, !pos_KK in H2 by assumption.
    apply (proj1 (scale_nonpos K _ KP)). apply H2; [exact PT|]. intros x y Ie Nx Ny T. apply (VIS x y Ie Nx Ny). destruct (RE x y Ie) as [Lx Ly].
    rewrite !ZM, !moved_scaled in T by assumption. unfold touches in *. rewrite !orient_moved in T.
    assert (X : forall s w, K * K * s * (K * K * w) <= 0 -> s * w <= 0).
    { intros s w Q. replace (K * K * s * (K * K * w)) with (K * K * (K * K) * (s * w)) in Q by ring. exact (proj1 (scale_nonpos K _ KP) Q). }
    destruct T as [T1 T2]. split; apply X; assumption.
  - intros v Lv H. apply (H4 v Lv). destruct H as [H|[W1 W2]]; [left; exact H|right]. rewrite (ZM v Lv).
    split; [rewrite wind_moved' by (left; reflexivity); exact W1|]. intros h Ih. rewrite wind_moved' by (right; exact Ih). auto.
Qed.
End Move.

(** ** the hypotheses on integer inputs move along *)
Lemma zat_map f zs v : (v < length zs)%nat -> zat (map f zs) v = f (zat zs v).
Proof. intro L. unfold zat. rewrite (nth_indep _ (0, 0) (f (0, 0))) by (rewrite map_length; exact L). apply map_nth. Qed.
Lemma fold_affine (g : Z -> Z -> Z) K t l d : (forall a b, g (K * a + t) (K * b + t) = K * g a b + t) ->
  fold_right g (K * d + t) (map (fun x => K * x + t) l) = K * fold_right g d l + t.
Proof. intro H. induction l as [|x l IH]; [reflexivity|]. cbn [map fold_right]. rewrite IH. apply H. Qed.
Lemma least_affine K t l : 0 < K -> l <> [] -> least (map (fun x => K * x + t) l) = K * least l + t.
Proof.
  intros KP NE. destruct l as [|x l]; [congruence|]. unfold least. cbn [map hd]. apply (fold_affine Z.min K t (x :: l) x). intros. nia.
Qed.
Lemma greatest_affine K t l : 0 < K -> l <> [] -> greatest (map (fun x => K * x + t) l) = K * greatest l + t.
Proof.
  intros KP NE. destruct l as [|x l]; [congruence|]. unfold greatest. cbn [map hd]. apply (fold_affine Z.max K t (x :: l) x). intros. nia.
Qed.
Lemma tenths_moved K t zs : 0 < K -> zs <> [] -> tenths (map (moved K t) zs) = map (moved K (scaled 10 t)) (tenths zs).
Proof.
  intros KP NE. unfold tenths.
  assert (E1 : forall f : zpt -> Z, map f zs <> []) by (intros f Q; apply NE; destruct zs; [reflexivity|discriminate]).
  assert (E2 : map fst (map (moved K t) zs) = map (fun x => K * x + fst t) (map fst zs)) by (rewrite !map_map; reflexivity).
  assert (E3 : map snd (map (moved K t) zs) = map (fun x => K * x + snd t) (map snd zs)) by (rewrite !map_map; reflexivity).
  rewrite E2, E3, !least_affine, !greatest_affine by auto. rewrite map_app. f_equal.
  - rewrite !map_map. apply map_ext. intro p. unfold moved, scaled. cbn [fst snd]. f_equal; ring.
  - cbn [map]. unfold moved, scaled. cbn [fst snd]. f_equal; [f_equal; ring|]. f_equal. f_equal; ring.
Qed.
Lemma ntc_moved K t l : 0 < K -> no_three_collinear l -> no_three_collinear (map (moved K t) l).
Proof.
  intros KP H i j k L1 L2 L3. rewrite map_length in L3. pose proof (zat_map (moved K t) l) as Z'. unfold zat in Z'. rewrite !Z' by lia. rewrite orient_moved.
  specialize (H i j k L1 L2 L3). nia.
Qed.
Definition in_range (zs : list zpt) : Prop := Forall (fun z => Z.abs (fst z) <= 65536 /\ Z.abs (snd z) <= 65536) zs.
Section MoveInt.
Variables (zs : list zpt) (K : Z) (t : zpt).
Hypothesis KP : 0 < K.
Notation zs' := (map (moved K t) zs).
Lemma len_moved : length zs' = length zs. Proof using. apply map_length. Qed.
Lemma move_integer : in_range zs' -> integer_input zs -> integer_input zs'.
Proof using KP.
  intros R (L & _ & N). split; [rewrite map_length; exact L|]. split; [exact R|]. rewrite tenths_moved; [apply ntc_moved; assumption|exact KP|]. intros ->. cbn in L. lia.
Qed.
Lemma move_apart es : (forall x y, In (x, y) es -> (x < length zs /\ y < length zs)%nat) -> edges_apart zs es -> edges_apart zs' es.
Proof using KP.
  intros RE EA [x y] [u w] J1 J2. cbn [fst snd]. destruct (RE x y J1), (RE u w J2). rewrite !zat_map, !orient_moved by assumption.
  pose proof (EA (x, y) (u, w) J1 J2) as Q. cbn [fst snd] in Q. intros [A B]. apply Q. assert (X : forall s w, K * K * s * (K * K * w) < 0 -> s * w < 0) by (intros; nia). split; apply X; assumption.
Qed.
Lemma move_capped p q : (p < length zs)%nat -> (q < length zs)%nat -> capped zs' p q -> capped zs p q.
Proof using KP.
  intros Lp Lq (C1 & C2 & u & v & w & Lu & Lv & Lw & R). rewrite len_moved in Lu, Lv, Lw. rewrite !zat_map in R by assumption. rewrite !zat_map in C1, C2 by assumption. rewrite !orient_moved in R.
  unfold moved in C1, C2, R. unfold ylt in *. cbn [fst snd] in *. destruct R as (R1 & R2 & R3 & R4 & R5 & R6 & R7 & R8). 
  assert (LT : forall a b s, K * a + s < K * b + s <-> a < b) by (intros; nia). assert (LE : forall a b s, K * a + s <= K * b + s <-> a <= b) by (intros; nia).
  assert (EQ : forall a b s, K * a + s = K * b + s <-> a = b) by (intros; nia). rewrite ?LT, ?LE, ?EQ in *. split; [exact C1|]. split; [exact C2|]. exists u, v, w.
  split; [exact Lu|]. split; [exact Lv|]. split; [exact Lw|]. repeat (split; [nia|]). nia.
Qed.
Lemma move_holes poly holes : (forall c v, In c (poly :: holes) -> In v c -> (v < length zs)%nat) -> holes_inside zs poly holes -> holes_inside zs' poly holes.
Proof using KP.
  intros RG H k p h K0 Ih W.
  assert (E : forall c, In c (poly :: holes) -> wind (fun v => scaled k (zat zs' v)) c p = wind (fun v => scaled (k * K) (zat zs v)) c (moved 1 (scaled (- k) t) p)).
  { intros c Ic. rewrite <- (wind_moved 1 (scaled k t) (fun v => scaled (k * K) (zat zs v)) c (moved 1 (scaled (- k) t) p)) by lia.
    replace (moved 1 (scaled k t) (moved 1 (scaled (- k) t) p)) with p by (destruct p; unfold moved, scaled; cbn [fst snd]; f_equal; ring).
    apply wind_ext. intros v Iv. rewrite zat_map by (eapply RG; eauto). unfold moved, scaled. cbn [fst snd]. f_equal; ring. }
  rewrite E in W by (right; exact Ih). destruct (H (k * K) _ h ltac:(apply Z.mul_pos_pos; assumption) Ih W) as [A B]. split; [rewrite E by (left; reflexivity); exact A|].
  intros h' Ih' N. rewrite E by (right; exact Ih'). apply B; assumption.
Qed.
Lemma move_loose poly holes : (forall c v, In c (poly :: holes) -> In v c -> (v < length zs)%nat) -> loose_points_allowed zs poly holes -> loose_points_allowed zs' poly holes.
Proof using KP.
  intros RG H v Lv Nv. rewrite len_moved in *. destruct (H v Lv Nv) as [H1|(q & Lq & X & Y)].
  - left. intro Q. apply H1. rewrite <- Q. rewrite zat_map by exact Lv. symmetry.
    apply (wind_moved' (length zs) (zat zs) (zat zs') poly holes K t KP); [|exact RG|left; reflexivity]. intros w Lw. apply zat_map. exact Lw.
  - right. exists q. split; [exact Lq|]. rewrite !zat_map by assumption. unfold moved. cbn [fst snd]. split; [apply Zplus_lt_compat_r, Z.mul_lt_mono_pos_l|apply Zplus_le_compat_r, Z.mul_le_mono_nonneg_l]; [exact KP|exact X|lia|exact Y].
Qed.
End MoveInt.
