(** * Turned: rotating, mirroring and enlarging an input

    [turned m al be t] multiplies by the complex number al + be*i (a rotation and an enlargement), after mirroring in
    the x axis if m, and shifts by t: every similarity of the plane with integer coefficients.

    The winding number counts crossings of a ray straight down.  For a point on no line through an edge it is also
    the sum of the signs of the triangles between the edges and any point O, and that is turned along with the input. *)
From Coq Require Import List Arith Bool Lia ZArith Psatz Permutation.
From Verif Require Import Base Num Shape ShapeSpec Lists Utils F64 Exact Geom Legal Winding Disc CoverRun Stokes Region Outside PropsTri IntSpec IntHyp PropsCdt PropsCdtInt Unique.
Import ListNotations.
Local Open Scope Z_scope.

Definition turned (m : bool) (al be : Z) (t p : zpt) : zpt :=
  let y := if m then - snd p else snd p in (al * fst p - be * y + fst t, be * fst p + al * y + snd t).
Definition sgn (m : bool) : Z := if m then -1 else 1.

Lemma orient_turned m al be t a b c : orient (turned m al be t a) (turned m al be t b) (turned m al be t c) = sgn m * ((al * al + be * be) * orient a b c).
Proof. unfold turned, sgn. destruct m; zpts; ring. Qed.
Lemma incircle_turned m al be t a b c d : incircle (turned m al be t a) (turned m al be t b) (turned m al be t c) (turned m al be t d) =
  sgn m * ((al * al + be * be) * (al * al + be * be) * incircle a b c d).
Proof. destruct a, b, c, d. unfold turned, sgn, incircle, incircle_det. destruct m; cbn [fst snd]; ring. Qed.
Lemma turned_scaled k m al be t p : scaled k (turned m al be t p) = turned m al be (scaled k t) (scaled k p).
Proof. unfold scaled, turned. destruct m; cbn [fst snd]; f_equal; ring. Qed.
Lemma incircle_flip a b c d : incircle a c b d = - incircle a b c d.
Proof. destruct a, b, c, d. unfold incircle, incircle_det. cbn [fst snd]. ring. Qed.

(** ** the winding number as a sum of signs *)
(** is the point on the left of all three sides (1), on the right of all (-1), or neither *)
Definition side3 (a b c : Z) : Z := if (0 <? a) && (0 <? b) && (0 <? c) then 1 else if (a <? 0) && (b <? 0) && (c <? 0) then -1 else 0.
Lemma side3_pos D a b c : 0 < D -> side3 (D * a) (D * b) (D * c) = side3 a b c.
Proof.
  intro H. unfold side3.
  assert (E1 : forall x, (0 <? D * x) = (0 <? x)) by (intro x; destruct (Z.ltb_spec 0 (D * x)), (Z.ltb_spec 0 x); auto; nia).
  assert (E2 : forall x, (D * x <? 0) = (x <? 0)) by (intro x; destruct (Z.ltb_spec (D * x) 0), (Z.ltb_spec x 0); auto; nia).
  rewrite !E1, !E2. reflexivity.
Qed.
Lemma side3_sgn m a b c : side3 (sgn m * a) (sgn m * b) (sgn m * c) = sgn m * side3 a b c.
Proof.
  unfold side3, sgn. destruct m.
  - assert (E1 : forall x, (0 <? -1 * x) = (x <? 0)) by (intro x; destruct (Z.ltb_spec 0 (-1 * x)), (Z.ltb_spec x 0); auto; lia).
    assert (E2 : forall x, (-1 * x <? 0) = (0 <? x)) by (intro x; destruct (Z.ltb_spec (-1 * x) 0), (Z.ltb_spec 0 x); auto; lia).
    rewrite !E1, !E2. destruct (Z.ltb_spec a 0), (Z.ltb_spec 0 a), (Z.ltb_spec b 0), (Z.ltb_spec 0 b), (Z.ltb_spec c 0), (Z.ltb_spec 0 c); cbn [andb]; lia.
  - rewrite !Z.mul_1_l. lia.
Qed.
Lemma crx_flat x y z o1 o2 o3 : o1 * z + o2 * x + o3 * y = 0 -> o1 + o2 + o3 = 0 -> o1 <> 0 -> o2 <> 0 -> o3 <> 0 -> crx x y o1 + crx y z o2 + crx z x o3 = 0.
Proof.
  intros B S N1 N2 N3.
  assert (B1 : o1 * (z - x) + o3 * (y - x) = 0) by (replace o2 with (- o1 - o3) in B by lia; lia).
  assert (B2 : o2 * (x - y) + o1 * (z - y) = 0) by (replace o3 with (- o1 - o2) in B by lia; lia).
  assert (B3 : o3 * (y - z) + o2 * (x - z) = 0) by (replace o1 with (- o2 - o3) in B by lia; lia). clear B S.
  assert (K : forall a b u v, a * u + b * v = 0 -> 0 < u -> 0 < v -> a <> 0 -> (0 < a /\ b < 0) \/ (a < 0 /\ 0 < b)) by (clear; intros a b u v E U V N; destruct (Z_lt_le_dec 0 a); [left|right]; split; nia).
  unfold crx.
  destruct (Z.leb_spec x 0), (Z.leb_spec y 0), (Z.leb_spec z 0), (Z.ltb_spec 0 x), (Z.ltb_spec 0 y), (Z.ltb_spec 0 z); try lia; cbn [andb]; try lia.
  - destruct (K o3 o2 (z - y) (z - x)) as [[? ?]|[? ?]]; try lia; destruct (Z.leb_spec 0 o2), (Z.leb_spec o3 0); lia.
  - destruct (K o2 o1 (y - x) (y - z)) as [[? ?]|[? ?]]; try lia; destruct (Z.leb_spec 0 o1), (Z.leb_spec o2 0); lia.
  - destruct (K o1 o3 (z - x) (y - x)) as [[? ?]|[? ?]]; try lia; destruct (Z.leb_spec 0 o1), (Z.leb_spec o3 0); lia.
  - destruct (K o1 o3 (x - z) (x - y)) as [[? ?]|[? ?]]; try lia; destruct (Z.leb_spec o1 0), (Z.leb_spec 0 o3); lia.
  - destruct (K o2 o1 (x - y) (z - y)) as [[? ?]|[? ?]]; try lia; destruct (Z.leb_spec o1 0), (Z.leb_spec 0 o2); lia.
  - destruct (K o3 o2 (y - z) (x - z)) as [[? ?]|[? ?]]; try lia; destruct (Z.leb_spec 0 o3), (Z.leb_spec o2 0); lia.
Qed.
Lemma wn3_signs a b c p : orient a b p <> 0 -> orient b c p <> 0 -> orient c a p <> 0 -> wn3 a b c p = side3 (orient a b p) (orient b c p) (orient c a p).
Proof.
  intros N1 N2 N3. assert (D : orient a b p + orient b c p + orient c a p = orient a b c) by (clear; zpts; ring).
  destruct (Z.lt_total 0 (orient a b c)) as [O|[O|O]].
  - destruct (wn3_ccw a b c p O) as (H1 & H2 & H3). unfold strictly_inside, inside_or_on, side3 in *.
    destruct (Z.ltb_spec 0 (orient a b p)), (Z.ltb_spec 0 (orient b c p)), (Z.ltb_spec 0 (orient c a p)), (Z.ltb_spec (orient a b p) 0), (Z.ltb_spec (orient b c p) 0), (Z.ltb_spec (orient c a p) 0); cbn [andb]; try lia.
  - pose proof (bary_x a b c p) as B. unfold wn3. rewrite !cr_crx, crx_flat by (assumption || lia).
    unfold side3. destruct (Z.ltb_spec 0 (orient a b p)), (Z.ltb_spec 0 (orient b c p)), (Z.ltb_spec 0 (orient c a p)), (Z.ltb_spec (orient a b p) 0), (Z.ltb_spec (orient b c p) 0), (Z.ltb_spec (orient c a p) 0); cbn [andb]; lia.
  - assert (E : wn3 a b c p = - wn3 a c b p) by (unfold wn3; rewrite (cr_anti a c), (cr_anti c b), (cr_anti b a); ring). rewrite E.
    destruct (wn3_ccw a c b p ltac:(rewrite orient_swap'; lia)) as (H1 & H2 & H3). unfold strictly_inside, inside_or_on, side3 in *. rewrite (orient_swap c a), (orient_swap b c), (orient_swap a b) in *.
    destruct (Z.ltb_spec 0 (orient a b p)), (Z.ltb_spec 0 (orient b c p)), (Z.ltb_spec 0 (orient c a p)), (Z.ltb_spec (orient a b p) 0), (Z.ltb_spec (orient b c p) 0), (Z.ltb_spec (orient c a p) 0); cbn [andb]; try lia.
Qed.
(** a point on no line through p and a corner *)
Lemma apex (l : list zpt) p : (forall u, In u l -> u <> p) -> exists O, forall u, In u l -> orient O u p <> 0.
Proof.
  intro H. assert (BD : exists M, 0 <= M /\ forall u, In u l -> Z.abs (snd u - snd p) <= M).
  { clear H. induction l as [|u l (M & M0 & IH)]; [exists 0; split; [lia|intros u []]|]. exists (M + Z.abs (snd u - snd p)). split; [lia|]. intros v [<-|Iv]; [lia|]. specialize (IH v Iv). lia. }
  destruct BD as (M & M0 & BD). exists (fst p + 1, snd p + (M + 1)). intros u Iu Q. specialize (BD u Iu). apply (H u Iu).
  assert (E : orient (fst p + 1, snd p + (M + 1)) u p = (snd p - snd u) * -1 + (M + 1) * (fst p - fst u)) by (zpts; ring). rewrite E in Q. clear E H.
  assert (X : fst p = fst u) by (destruct (Z.eq_dec (fst p) (fst u)); [assumption|exfalso; nia]).
  destruct u, p. cbn [fst snd] in *. f_equal; nia.
Qed.
Lemma wind_fan O z c p : wind z c p = zsuml (fun e => wn3 O (z (fst e)) (z (snd e)) p) (cyc c).
Proof.
  unfold wind. rewrite (zsuml_ext (fun e => wn3 O (z (fst e)) (z (snd e)) p) (fun e => cr (z (fst e)) (z (snd e)) p + (- cr O (z (snd e)) p - - cr O (z (fst e)) p))).
  - rewrite zsuml_sum, (around (fun v => - cr O (z v) p)). ring.
  - intros e _. unfold wn3. rewrite (cr_anti O (z (snd e))). ring.
Qed.
Lemma turn_pos al be : al <> 0 \/ be <> 0 -> 0 < al * al + be * be. Proof. nia. Qed.
(** turning turns the winding number of a point on no line through an edge; mirroring changes its sign *)
Lemma wind_turned m al be t z z' c p : al <> 0 \/ be <> 0 -> (forall v, In v c -> z' v = turned m al be t (z v)) ->
  (forall x y, In (x, y) (cyc c) -> orient (z x) (z y) p <> 0) -> wind z' c (turned m al be t p) = sgn m * wind z c p.
Proof.
  intros N ZE G. pose proof (turn_pos al be N) as DP. set (D := al * al + be * be) in *.
  destruct (apex (map z c) p) as (O & HO).
  { intros u Iu ->. apply in_map_iff in Iu as (v & E & Iv). destruct (PropsCdt.cyc_out c v Iv) as (y & I'). apply (G v y I'). rewrite E. clear. zpts. ring. }
  rewrite (wind_fan O z), (wind_fan (turned m al be t O) z'), <- zsuml_scale. apply zsuml_ext. intros [x y] I'. cbn [fst snd]. pose proof (Stokes.cyc_in _ _ _ I') as [Ix Iy].
  pose proof (G x y I') as N2. pose proof (HO (z x) (in_map z _ _ Ix)) as N1. pose proof (HO (z y) (in_map z _ _ Iy)) as N3. rewrite (ZE x Ix), (ZE y Iy).
  assert (N3' : orient (z y) O p <> 0) by (rewrite orient_swap; lia).
  assert (X : forall o, o <> 0 -> sgn m * (D * o) <> 0) by (intros o NZ; unfold sgn; destruct m; nia).
  rewrite !wn3_signs by (rewrite ?orient_turned; fold D; first [assumption|apply X; assumption]). rewrite !orient_turned. fold D. rewrite side3_sgn, side3_pos by exact DP. reflexivity.
Qed.

(** ** the properties of a triangle list, looking only at points on no line through an edge *)
Definition off_lines (z : nat -> zpt) (es : list (nat * nat)) (k : Z) (p : zpt) : Prop := forall x y, In (x, y) es -> orient (scaled k (z x)) (scaled k (z y)) p <> 0.
Definition flipped (m : bool) (t : nat * nat * nat) : nat * nat * nat := let '(a, b, c) := t in if m then (a, c, b) else (a, b, c).
Section Good.
Variables (n : nat) (z : nat -> zpt) (poly : list nat) (holes : list (list nat)) (tris : list (nat * nat * nat)).
Notation es := (flat_map Stokes.cyc (poly :: holes)).
Definition ccw_tris : Prop := forall a b c, In (a, b, c) tris -> (a < n /\ b < n /\ c < n)%nat /\ 0 < orient (z a) (z b) (z c).
Definition apart_tris : Prop := forall i j t u k p, 0 < k -> nth_error tris i = Some t -> nth_error tris j = Some u -> point_in z t k p -> point_in z u k p -> i = j.
Definition within_tris : Prop := forall t k p, In t tris -> 0 < k -> point_in z t k p -> off_lines z es k p -> in_region z poly holes k p.
Definition cover_tris : Prop := forall k p, 0 < k -> off_lines z es k p -> in_region z poly holes k p -> exists t, In t tris /\ point_on z t k p.
Definition delaunay_tris : Prop := forall a b c v k p, In (a, b, c) tris -> (v < n)%nat -> 0 < k -> point_in z (a, b, c) k p -> visible z es v k p -> incircle (z a) (z b) (z c) (z v) <= 0.
Definition edges_tris : Prop := forall x y, In (x, y) es -> exists t, In t tris /\ joins t x y.
Definition good_tris : Prop := ccw_tris /\ apart_tris /\ within_tris /\ cover_tris /\ delaunay_tris /\ edges_tris.
End Good.
Lemma proper_good n z poly holes ids : proper_cdt n z (flat_map Stokes.cyc (poly :: holes)) poly holes ids -> good_tris n z poly holes (triples ids).
Proof.
  intros ((_ & A & B & C & D & _) & E & (F & _) & _). split; [exact A|]. split; [exact B|]. split; [|split; [|split]].
  - intros t k p It K0 P _. exact (C t k p It K0 P).
  - intros k p K0 _ [W1 W2]. exact (D k p K0 W1 W2).
  - exact E.
  - intros x y Ie. destruct (F x y Ie) as (i & t & Q & J & _). exists t. split; [eapply nth_error_In; eauto|exact J].
Qed.

Lemma sgn_zero m w : sgn m * w = 0 <-> w = 0. Proof. unfold sgn. destruct m; lia. Qed.
Section Turn.
Variables (n : nat) (z z' : nat -> zpt) (poly : list nat) (holes : list (list nat)) (m : bool) (al be K : Z) (t : zpt) (tris : list (nat * nat * nat)).
Notation es := (flat_map Stokes.cyc (poly :: holes)).
Hypothesis NZ : al <> 0 \/ be <> 0.
Hypothesis KP : 0 < K.
Hypothesis ZM : forall v, (v < n)%nat -> scaled K (z' v) = turned m al be t (z v).
Hypothesis RG : forall c v, In c (poly :: holes) -> In v c -> (v < n)%nat.
Notation D := (al * al + be * be).
Notation to k p := (turned m al be (scaled k t) p).
Let DP : 0 < D. Proof. exact (turn_pos al be NZ). Qed.
Lemma zm_scaled k v : (v < n)%nat -> scaled (k * K) (z' v) = to k (scaled k (z v)).
Proof using ZM. intro L. rewrite <- scaled_scaled, (ZM v L). apply turned_scaled. Qed.
Lemma es_range x y : In (x, y) es -> (x < n /\ y < n)%nat.
Proof using RG. intro Ie. apply in_flat_map in Ie as (c & Ic & Ie). apply Stokes.cyc_in in Ie as [Ix Iy]. split; eapply RG; eauto. Qed.
Lemma orient_to k a b c : orient (to k a) (to k b) (to k c) = sgn m * (D * orient a b c). Proof using. apply orient_turned. Qed.
Lemma pos_D o : 0 < D * o <-> 0 < o. Proof using NZ. pose proof (turn_pos al be NZ). nia. Qed.
Lemma neg_D o : 0 < -1 * (D * o) <-> o < 0. Proof using NZ. pose proof (turn_pos al be NZ). nia. Qed.
Lemma nonpos_D o : 0 <= -1 * (D * o) <-> o <= 0. Proof using NZ. pose proof (turn_pos al be NZ). nia. Qed.
Lemma nonneg_D o : 0 <= D * o <-> 0 <= o. Proof using NZ. pose proof (turn_pos al be NZ). nia. Qed.
Lemma region_to c k p : 0 < k -> In c (poly :: holes) -> off_lines z es k p -> wind (fun v => scaled (k * K) (z' v)) c (to k p) = sgn m * wind (fun v => scaled k (z v)) c p.
Proof using NZ ZM RG.
  intros K0 Ic OL. apply wind_turned; [exact NZ| |].
  - intros v Iv. apply zm_scaled. eapply RG; eauto.
  - intros x y Ie. apply OL. apply in_flat_map. eauto.
Qed.
Lemma in_region_to k p : 0 < k -> off_lines z es k p -> in_region z' poly holes (k * K) (to k p) <-> in_region z poly holes k p.
Proof using NZ ZM RG.
  intros K0 OL. unfold in_region. rewrite (region_to poly) by (auto; left; reflexivity). rewrite sgn_zero. split; intros [A B]; (split; [exact A|]); intros h Ih; specialize (B h Ih).
  - rewrite (region_to h) in B by (auto; right; exact Ih). apply sgn_zero in B. exact B.
  - rewrite (region_to h) by (auto; right; exact Ih). apply sgn_zero. exact B.
Qed.
Lemma off_lines_to k p : 0 < k -> off_lines z es k p -> off_lines z' es (k * K) (to k p).
Proof using NZ ZM RG.
  intros K0 OL x y Ie. destruct (es_range x y Ie) as [Lx Ly]. rewrite !zm_scaled, orient_to by assumption. specialize (OL x y Ie). intro Q. apply OL. apply sgn_zero in Q. apply Z.mul_eq_0 in Q as [Q|Q]; [lia|exact Q].
Qed.
Lemma point_in_to a b c k p : (a < n /\ b < n /\ c < n)%nat -> point_in z' (a, b, c) (k * K) (to k p) <-> point_in z (flipped m (a, b, c)) k p.
Proof using NZ ZM.
  intros (La & Lb & Lc). unfold point_in, flipped, strictly_inside. rewrite !zm_scaled, !orient_to by assumption. unfold sgn. destruct m.
  - set (A := scaled k (z a)). set (B := scaled k (z b)). set (C := scaled k (z c)).
    rewrite (orient_swap C A p), (orient_swap B C p), (orient_swap A B p), !neg_D. lia.
  - rewrite !Z.mul_1_l, !pos_D. reflexivity.
Qed.
Lemma point_on_to a b c k p : (a < n /\ b < n /\ c < n)%nat -> point_on z' (a, b, c) (k * K) (to k p) <-> point_on z (flipped m (a, b, c)) k p.
Proof using NZ ZM.
  intros (La & Lb & Lc). unfold point_on, flipped, inside_or_on. rewrite !zm_scaled, !orient_to by assumption. unfold sgn. destruct m.
  - set (A := scaled k (z a)). set (B := scaled k (z b)). set (C := scaled k (z c)).
    rewrite (orient_swap C A p), (orient_swap B C p), (orient_swap A B p), !nonpos_D. lia.
  - rewrite !Z.mul_1_l, !nonneg_D. reflexivity.
Qed.
Lemma touches_to k a b p q : touches (to k a) (to k b) (to k p) (to k q) <-> touches a b p q.
Proof using NZ ZM.
  unfold touches. rewrite !orient_to. assert (X : forall s w, sgn m * (D * s) * (sgn m * (D * w)) <= 0 <-> s * w <= 0).
  { intros s w. replace (sgn m * (D * s) * (sgn m * (D * w))) with (D * (D * (s * w))) by (unfold sgn; destruct m; ring). pose proof (turn_pos al be NZ) as P. revert P. generalize (s * w), (al * al + be * be). clear. intros o d P. split; intro H; [destruct (Z_lt_le_dec 0 o); [|assumption]; assert (0 < d * (d * o)) by (repeat apply Z.mul_pos_pos; assumption); lia|]. assert (d * o <= 0) by (apply Z.mul_nonneg_nonpos; lia). apply Z.mul_nonneg_nonpos; lia. }
  rewrite !X. reflexivity.
Qed.
Lemma flipped_in u : In u (map (flipped m) tris) -> exists a b c, In (a, b, c) tris /\ u = flipped m (a, b, c).
Proof using. intro H. apply in_map_iff in H as ([[a b] c] & <- & I'). eauto. Qed.
(** what holds of the triangles of the turned input holds of these triangles, mirrored back, of the input *)
Lemma turn_back : good_tris n z' poly holes tris -> good_tris n z poly holes (map (flipped m) tris).
Proof using All.
  intros (H1 & H2 & H3 & H4 & H5 & H6).
  assert (R : forall a b c, In (a, b, c) tris -> (a < n /\ b < n /\ c < n)%nat) by (intros; apply H1; assumption).
  assert (KK : forall k, 0 < k -> 0 < k * K) by (intros; apply Z.mul_pos_pos; auto).
  split; [|split; [|split; [|split; [|split]]]].
  - intros a' b' c' I'. apply flipped_in in I' as (a & b & c & I' & E). destruct (H1 a b c I') as ((La & Lb & Lc) & O).
    apply (ccw_scaled K _ _ _ KP) in O. rewrite !ZM, orient_turned in O by assumption. unfold flipped in E. unfold sgn in O. destruct m; injection E as -> -> ->.
    + split; [lia|]. rewrite neg_D in O. rewrite orient_swap'. lia.
    + split; [lia|]. rewrite Z.mul_1_l, pos_D in O. exact O.
  - intros i j u w k p K0 N1 N2 P1 P2. rewrite nth_error_map in N1, N2. destruct (nth_error tris i) as [[[a b] c]|] eqn:E1; [|discriminate]. destruct (nth_error tris j) as [[[d e] f]|] eqn:E2; [|discriminate].
    cbn [option_map] in N1, N2. injection N1 as <-. injection N2 as <-. apply point_in_to in P1; [|eapply R, nth_error_In; eauto]. apply point_in_to in P2; [|eapply R, nth_error_In; eauto].
    exact (H2 i j _ _ _ _ (KK k K0) E1 E2 P1 P2).
  - intros u k p I' K0 P OL. apply flipped_in in I' as (a & b & c & I' & ->). apply point_in_to in P; [|eapply R; eauto].
    apply (in_region_to k p K0 OL). apply (H3 (a, b, c)); auto. apply off_lines_to; assumption.
  - intros k p K0 OL W. apply (in_region_to k p K0 OL) in W. destruct (H4 _ _ (KK k K0) (off_lines_to k p K0 OL) W) as ([[a b] c] & I' & P).
    exists (flipped m (a, b, c)). split; [apply in_map; exact I'|]. apply point_on_to; [eapply R; eauto|exact P].
  - intros a' b' c' v k p I' Lv K0 P V. apply flipped_in in I' as (a & b & c & I' & E). destruct (R a b c I') as (La & Lb & Lc).
    rewrite E in P. apply point_in_to in P; [|auto]. specialize (H5 a b c v (k * K) (to k p) I' Lv (KK k K0) P).
    assert (Q : incircle (z' a) (z' b) (z' c) (z' v) <= 0).
    { apply H5. intros x y Ie Nx Ny T. destruct (es_range x y Ie) as [Lx Ly]. apply (V x y Ie Nx Ny). rewrite !zm_scaled in T by assumption. apply touches_to in T. exact T. }
    apply (scale_nonpos K _ KP) in Q. rewrite <- incircle_scaled, !ZM, incircle_turned in Q by assumption.
    pose proof (turn_pos al be NZ) as D0. assert (DD : 0 < D * D) by (apply Z.mul_pos_pos; exact D0). revert Q DD. generalize (D * D). intros d Q DD.
    unfold flipped in E. unfold sgn in Q. destruct m; injection E as -> -> ->; [rewrite incircle_flip|]; nia.
  - intros x y Ie. destruct (H6 x y Ie) as ([[a b] c] & I' & J). exists (flipped m (a, b, c)). split; [apply in_map; exact I'|].
    unfold flipped. destruct m; [|exact J]. unfold joins, sides in *. cbn [In] in *.
    destruct J as [[J|[J|[J|[]]]]|[J|[J|[J|[]]]]]; injection J as -> ->; tauto.
Qed.
End Turn.

(** ** such a list is determined by the points and the polygons *)
Section Unique.
Variables (n : nat) (z : nat -> zpt) (poly : list nat) (holes : list (list nat)).
Notation es := (flat_map Stokes.cyc (poly :: holes)).
Hypothesis GP : general_position n z.
Hypothesis NC : no_four_cocircular n z.
Hypothesis RG : forall c v, In c (poly :: holes) -> In v c -> (v < n)%nat.
Lemma ccw_ne a b c : 0 < orient (z a) (z b) (z c) -> a <> b /\ b <> c /\ a <> c.
Proof using.
  intro O. assert (Z0 : forall u v, orient u u v = 0) by (intros; zpts; ring). split; [|split]; intros ->; revert O; [rewrite Z0|rewrite <- orient_rot, Z0|rewrite <- orient_rot', Z0]; lia.
Qed.
Lemma distinct_points a b c : (a < n)%nat -> (b < n)%nat -> (c < n)%nat -> a <> b -> b <> c -> a <> c -> forall i j, (i < n)%nat -> (j < n)%nat -> i <> j -> z i <> z j.
Proof using GP.
  intros La Lb Lc N1 N2 N3 i j Li Lj N Q. assert (Z0 : forall u v, orient u u v = 0) by (intros; zpts; ring).
  assert (X : forall k, (k < n)%nat -> k = i \/ k = j).
  { intros k Lk. destruct (Nat.eq_dec k i) as [->|A]; [auto|]. destruct (Nat.eq_dec k j) as [->|B]; [auto|]. exfalso. apply (GP i j k Li Lj Lk); auto. rewrite Q. apply Z0. }
  destruct (X a La), (X b Lb), (X c Lc); congruence.
Qed.
Lemma ends_range x y : In (x, y) es -> (x < n /\ y < n)%nat.
Proof using RG. intro Ie. apply in_flat_map in Ie as (cc & Ic & Ie). apply Stokes.cyc_in in Ie as [Ix Iy]. split; eapply RG; eauto. Qed.
(** the corners of a triangle can be seen from inside it *)
Lemma corner_seen tris u d k q : ccw_tris n z tris -> apart_tris z tris -> edges_tris poly holes tris ->
  In u tris -> corner d u -> (d < n)%nat -> 0 < k -> point_in z u k q -> visible z es d k q.
Proof using GP RG.
  intros TC TO CF Iu Cd Ld K0 P2 x y Ie Nx Ny. destruct (ends_range x y Ie) as [Lx Ly]. destruct (CF x y Ie) as ([[w1 w2] w3] & Iw & J).
  apply (sees n z tris TC TO u d k q (w1, w2, w3) x y); auto. apply GP; auto. intro Q. apply (side_ne w1 w2 w3 x y z (proj2 (TC w1 w2 w3 Iw)) J). rewrite Q. reflexivity.
Qed.
(** a triangle of one list meets one of the other, if the other covers the region *)
Lemma common_point tris1 tris2 a b c : ccw_tris n z tris1 -> within_tris z poly holes tris1 -> edges_tris poly holes tris1 -> ccw_tris n z tris2 -> cover_tris z poly holes tris2 ->
  In (a, b, c) tris1 -> exists d e f k q, In (d, e, f) tris2 /\ 0 < k /\ point_in z (a, b, c) k q /\ point_in z (d, e, f) k q.
Proof using GP RG.
  intros TC1 W1 CE1 TC2 CV2 It. destruct (TC1 a b c It) as ((La & Lb & Lc) & O1). destruct (ccw_ne a b c O1) as (N1 & N2 & N3). pose proof (distinct_points a b c La Lb Lc N1 N2 N3) as DI.
  pose proof (near_vertex (z a) (z b) (z c) 1 O1 ltac:(lia)) as PV. cbv zeta in PV. set (p := (_, _)) in PV. change (1 + 2) with 3 in PV.
  destruct (generic_near (fun v => scaled 3 (z v)) n p) as (m0 & q0 & M0 & G).
  { intros i j Li Lj N Q. apply (DI i j Li Lj N). apply (scaled_inj 3); [lia|exact Q]. }
  assert (SC0 : forall v, scaled m0 (scaled 3 (z v)) = scaled (m0 * 3) (z v)) by (intro v; apply scaled_scaled). set (k0 := m0 * 3) in *. assert (K0 : 0 < k0) by (unfold k0; lia).
  assert (RO : forall u v, orient (scaled k0 (z u)) (scaled k0 (z v)) q0 = orient q0 (scaled k0 (z u)) (scaled k0 (z v))) by (intros; apply orient_rot).
  assert (PI : point_in z (a, b, c) k0 q0).
  { destruct PV as (V1 & V2 & V3). unfold point_in, strictly_inside. rewrite !RO, <- !SC0. split; [|split]; apply G; auto; rewrite <- orient_rot; assumption. }
  assert (OL : off_lines z es k0 q0).
  { intros x y Ie. destruct (ends_range x y Ie) as [Lx Ly]. rewrite RO, <- !SC0. apply G; auto. destruct (CE1 x y Ie) as ([[w1 w2] w3] & Iw & J). intro Q. apply (side_ne w1 w2 w3 x y z (proj2 (TC1 w1 w2 w3 Iw)) J). rewrite Q. reflexivity. }
  pose proof (W1 _ _ _ It K0 PI OL) as REG. destruct (CV2 _ _ K0 OL REG) as ([[d e] f] & Iu & On).
  destruct (TC2 d e f Iu) as (_ & O2). unfold point_on in On. unfold point_in in PI.
  destruct (both_inside _ _ _ _ _ _ q0 PI On (ccw_scaled k0 _ _ _ K0 O2)) as (m' & q & M' & B1 & B2). rewrite !scaled_scaled in B1, B2.
  exists d, e, f, (m' * k0), q. split; [exact Iu|]. split; [apply Z.mul_pos_pos; assumption|]. split; [exact B1|exact B2].
Qed.
(** two triangles that meet, with no corner of the one strictly inside the circumcircle of the other, are the same *)
Lemma meet_same a b c d e f k q : (a < n)%nat -> (b < n)%nat -> (c < n)%nat -> (d < n)%nat -> (e < n)%nat -> (f < n)%nat -> 0 < orient (z a) (z b) (z c) -> 0 < orient (z d) (z e) (z f) ->
  0 < k -> point_in z (a, b, c) k q -> point_in z (d, e, f) k q ->
  (forall v, corner v (d, e, f) -> incircle (z a) (z b) (z c) (z v) <= 0) -> (forall v, corner v (a, b, c) -> incircle (z d) (z e) (z f) (z v) <= 0) ->
  (d, e, f) = (a, b, c) \/ (d, e, f) = (b, c, a) \/ (d, e, f) = (c, a, b).
Proof using NC.
  intros La Lb Lc Ld Le Lf O1 O2 KP PT PU C1 C2. destruct (ccw_ne a b c O1) as (N1 & N2 & N3).
  destruct (circles (scaled k (z a)) (scaled k (z b)) (scaled k (z c)) (scaled k (z d)) (scaled k (z e)) (scaled k (z f)) q) as (Q1 & Q2 & Q3);
    try (apply ccw_scaled; assumption); try assumption; try (rewrite incircle_scaled; apply scale_nonpos; [exact KP|]; (apply C1 || apply C2); unfold corner; tauto).
  rewrite incircle_scaled in Q1, Q2, Q3.
  assert (Z4 : forall x, k * k * (k * k) * x = 0 -> x = 0) by (intros x Q; assert (0 < k * k * (k * k)) by (repeat apply Z.mul_pos_pos; auto); apply Z.mul_eq_0 in Q as [Q|Q]; lia).
  apply Z4 in Q1, Q2, Q3.
  assert (CC : forall v, (v < n)%nat -> incircle (z a) (z b) (z c) (z v) = 0 -> v = a \/ v = b \/ v = c).
  { intros v Lv Q. destruct (Nat.eq_dec v a) as [->|Na]; auto. destruct (Nat.eq_dec v b) as [->|Nb]; auto. destruct (Nat.eq_dec v c) as [->|Nc]; auto. exfalso. exact (NC a b c v La Lb Lc Lv N1 N2 N3 Na Nb Nc Q). }
  apply CC in Q1, Q2, Q3; auto. destruct (ccw_ne d e f O2) as (D1 & D2 & D3). clear - O1 O2 Q1 Q2 Q3 D1 D2 D3.
  assert (X1 : orient (z a) (z c) (z b) = - orient (z a) (z b) (z c)) by apply orient_swap'.
  assert (X2 : orient (z b) (z a) (z c) = - orient (z a) (z b) (z c)) by apply orient_swap.
  assert (X3 : orient (z c) (z b) (z a) = - orient (z a) (z b) (z c)) by (rewrite orient_rot; apply orient_swap').
  destruct Q1 as [->|[->| ->]], Q2 as [->|[->| ->]], Q3 as [->|[->| ->]]; try contradiction; auto; rewrite ?X1, ?X2, ?X3 in O2; exfalso; lia.
Qed.
Theorem unique_tris tris1 tris2 : good_tris n z poly holes tris1 -> good_tris n z poly holes tris2 ->
  forall a b c, In (a, b, c) tris1 -> In (a, b, c) tris2 \/ In (b, c, a) tris2 \/ In (c, a, b) tris2.
Proof using All.
  intros (TC1 & TO1 & W1 & CV1 & CD1 & CE1) (TC2 & TO2 & W2 & CV2 & CD2 & CE2) a b c It.
  destruct (common_point tris1 tris2 a b c TC1 W1 CE1 TC2 CV2 It) as (d & e & f & k & q & Iu & KP & PT & PU).
  destruct (TC1 a b c It) as ((La & Lb & Lc) & O1). destruct (TC2 d e f Iu) as ((Ld & Le & Lf) & O2).
  assert (L1 : forall v, corner v (a, b, c) -> (v < n)%nat) by (intros v [->|[->| ->]]; assumption).
  assert (L2 : forall v, corner v (d, e, f) -> (v < n)%nat) by (intros v [->|[->| ->]]; assumption).
  destruct (meet_same a b c d e f k q) as [E|[E|E]]; auto.
  - intros v Cv. apply (CD1 a b c v k q It (L2 v Cv) KP PT). exact (corner_seen tris2 (d, e, f) v k q TC2 TO2 CE2 Iu Cv (L2 v Cv) KP PU).
  - intros v Cv. apply (CD2 d e f v k q Iu (L1 v Cv) KP PU). exact (corner_seen tris1 (a, b, c) v k q TC1 TO1 CE1 It Cv (L1 v Cv) KP PT).
  - rewrite <- E. auto.
  - rewrite <- E. auto.
  - rewrite <- E. auto.
Qed.
End Unique.

(** ** more points, the same polygons *)
Section Added.
Variables (n1 n2 : nat) (z : nat -> zpt) (poly : list nat) (holes : list (list nat)) (tris1 tris2 : list (nat * nat * nat)).
Notation es := (flat_map Stokes.cyc (poly :: holes)).
Hypothesis LN : (n1 <= n2)%nat.
Hypothesis GP : general_position n2 z.
Hypothesis NC : no_four_cocircular n2 z.
Hypothesis RG : forall c v, In c (poly :: holes) -> In v c -> (v < n1)%nat.
Hypothesis G1 : good_tris n1 z poly holes tris1.
Hypothesis G2 : good_tris n2 z poly holes tris2.
Let RG2 : forall c v, In c (poly :: holes) -> In v c -> (v < n2)%nat. Proof. intros c v Ic Iv. pose proof (RG c v Ic Iv). lia. Qed.
Let TC1 : ccw_tris n2 z tris1. Proof. intros a b c I'. destruct (proj1 G1 a b c I') as ((La & Lb & Lc) & O). split; [lia|exact O]. Qed.
Lemma added_pair a b c d e f k q : In (a, b, c) tris1 -> In (d, e, f) tris2 -> 0 < k -> point_in z (a, b, c) k q -> point_in z (d, e, f) k q ->
  (forall v, (n1 <= v < n2)%nat -> corner v (d, e, f) -> incircle (z a) (z b) (z c) (z v) <= 0) -> (d, e, f) = (a, b, c) \/ (d, e, f) = (b, c, a) \/ (d, e, f) = (c, a, b).
Proof using All.
  intros It Iu KP PT PU NEW. destruct G1 as (TC1' & TO1 & W1 & CV1 & CD1 & CE1). destruct G2 as (TC2 & TO2 & W2 & CV2 & CD2 & CE2).
  destruct (TC1 a b c It) as ((La & Lb & Lc) & O1). destruct (TC2 d e f Iu) as ((Ld & Le & Lf) & O2).
  assert (L1 : forall v, corner v (a, b, c) -> (v < n2)%nat) by (intros v [->|[->| ->]]; assumption).
  assert (L2 : forall v, corner v (d, e, f) -> (v < n2)%nat) by (intros v [->|[->| ->]]; assumption).
  apply (meet_same n2 z NC a b c d e f k q); auto.
  - intros v Cv. destruct (Nat.lt_ge_cases v n1) as [Lv|Lv]; [|apply NEW; auto].
    apply (CD1 a b c v k q It Lv KP PT). exact (corner_seen n2 z poly holes GP RG2 tris2 (d, e, f) v k q TC2 TO2 CE2 Iu Cv (L2 v Cv) KP PU).
  - intros v Cv. apply (CD2 d e f v k q Iu (L1 v Cv) KP PU). exact (corner_seen n2 z poly holes GP RG2 tris1 (a, b, c) v k q TC1 TO1 CE1 It Cv (L1 v Cv) KP PT).
Qed.
(** a triangle stays if no added point that can be seen from inside it is strictly inside its circumcircle *)
Lemma triangle_stays a b c : In (a, b, c) tris1 ->
  (forall v k p, (n1 <= v < n2)%nat -> 0 < k -> point_in z (a, b, c) k p -> visible z es v k p -> incircle (z a) (z b) (z c) (z v) <= 0) ->
  In (a, b, c) tris2 \/ In (b, c, a) tris2 \/ In (c, a, b) tris2.
Proof using All.
  intros It NEW. pose proof G1 as (_ & TO1 & W1 & CV1 & CD1 & CE1). pose proof G2 as (TC2 & TO2 & W2 & CV2 & CD2 & CE2).
  destruct (common_point n2 z poly holes GP RG2 tris1 tris2 a b c TC1 W1 CE1 TC2 CV2 It) as (d & e & f & k & q & Iu & KP & PT & PU).
  destruct (added_pair a b c d e f k q It Iu KP PT PU) as [E|[E|E]]; try (rewrite <- E; auto).
  intros v Lv Cv. apply (NEW v k q Lv KP PT). exact (corner_seen n2 z poly holes GP RG2 tris2 (d, e, f) v k q TC2 TO2 CE2 Iu Cv (proj2 Lv) KP PU).
Qed.
(** only triangles with an added corner are new *)
Lemma triangle_old a b c : In (a, b, c) tris2 -> (a < n1)%nat -> (b < n1)%nat -> (c < n1)%nat -> In (a, b, c) tris1 \/ In (b, c, a) tris1 \/ In (c, a, b) tris1.
Proof using All.
  intros Iu La Lb Lc. pose proof G1 as (_ & TO1 & W1 & CV1 & CD1 & CE1). pose proof G2 as (TC2 & TO2 & W2 & CV2 & CD2 & CE2).
  destruct (common_point n2 z poly holes GP RG2 tris2 tris1 a b c TC2 W2 CE2 TC1 CV1 Iu) as (d & e & f & k & q & It & KP & PU & PT).
  destruct (added_pair d e f a b c k q It Iu KP PT PU) as [E|[E|E]]; try (injection E as -> -> ->; auto).
  intros v Lv Cv. exfalso. destruct Cv as [->|[->| ->]]; lia.
Qed.
(** a triangle that stays has no added point, seen from inside it, inside its circumcircle *)
Lemma stays_empty a b c v k p : In (a, b, c) tris2 \/ In (b, c, a) tris2 \/ In (c, a, b) tris2 -> (v < n2)%nat -> 0 < k -> point_in z (a, b, c) k p -> visible z es v k p -> incircle (z a) (z b) (z c) (z v) <= 0.
Proof using G2.
  intros Iu Lv K0 (P1 & P2 & P3) V. pose proof G2 as (_ & _ & _ & _ & CD2 & _). destruct Iu as [Iu|[Iu|Iu]].
  - apply (CD2 a b c v k p); auto. split; auto.
  - assert (E : incircle (z b) (z c) (z a) (z v) <= 0) by (apply (CD2 b c a v k p); auto; split; auto). rewrite <- incircle_rot. exact E.
  - assert (E : incircle (z c) (z a) (z b) (z v) <= 0) by (apply (CD2 c a b v k p); auto; split; auto). rewrite incircle_rot. exact E.
Qed.
End Added.
