(** * Unique: a constrained Delaunay triangulation is determined by the region, the edges and the points

    Two triangles whose insides meet, each with no corner of the other inside its circumcircle: the corners of the
    one are on the circumcircle of the other. *)
From Coq Require Import List Arith Bool Lia ZArith Psatz Permutation.
From Verif Require Import Base Lists Exact Geom Legal Winding Disc Stokes CoverRun Region PropsTri PropsCdt.
Import ListNotations.
Local Open Scope Z_scope.

Definition det3 (a1 a2 a3 b1 b2 b3 c1 c2 c3 : Z) : Z := a1 * (b2 * c3 - b3 * c2) - a2 * (b1 * c3 - b3 * c1) + a3 * (b1 * c2 - b2 * c1).
Definition sq (p : zpt) : Z := fst p * fst p + snd p * snd p.
Definition qx (a b c : zpt) : Z := - det3 (snd a) (sq a) 1 (snd b) (sq b) 1 (snd c) (sq c) 1.
Definition qy (a b c : zpt) : Z := det3 (fst a) (sq a) 1 (fst b) (sq b) 1 (fst c) (sq c) 1.
Definition qc (a b c : zpt) : Z := det3 (fst a) (snd a) (sq a) (fst b) (snd b) (sq b) (fst c) (snd c) (sq c).
Lemma incircle_quad a b c p : incircle a b c p = - orient a b c * sq p + qx a b c * fst p + qy a b c * snd p + qc a b c.
Proof. unfold qx, qy, qc, det3, sq. zpts. ring. Qed.
Definition aff (A B C : Z) (p : zpt) : Z := A * fst p + B * snd p + C.
Lemma aff_bary A B C d e f p : aff A B C p * orient d e f = orient e f p * aff A B C d + orient f d p * aff A B C e + orient d e p * aff A B C f.
Proof. unfold aff. zpts. ring. Qed.

Lemma circles a b c d e f p : 0 < orient a b c -> 0 < orient d e f -> strictly_inside a b c p -> strictly_inside d e f p ->
  incircle a b c d <= 0 -> incircle a b c e <= 0 -> incircle a b c f <= 0 -> incircle d e f a <= 0 -> incircle d e f b <= 0 -> incircle d e f c <= 0 ->
  incircle a b c d = 0 /\ incircle a b c e = 0 /\ incircle a b c f = 0.
Proof.
  intros O1 O2 (I1 & I2 & I3) (J1 & J2 & J3) D1 D2 D3 A1 A2 A3.
  set (o1 := orient a b c) in *. set (o2 := orient d e f) in *.
  set (G := aff (o2 * qx a b c - o1 * qx d e f) (o2 * qy a b c - o1 * qy d e f) (o2 * qc a b c - o1 * qc d e f)).
  assert (GE : forall x, G x = o2 * incircle a b c x - o1 * incircle d e f x) by (intro x; rewrite !incircle_quad; unfold G, aff; fold o1 o2; ring).
  destruct (Delaunay.incircle_vertex a b c) as (V1 & V2 & V3). destruct (Delaunay.incircle_vertex d e f) as (V4 & V5 & V6).
  pose proof (aff_bary (o2 * qx a b c - o1 * qx d e f) (o2 * qy a b c - o1 * qy d e f) (o2 * qc a b c - o1 * qc d e f) d e f p) as E2.
  pose proof (aff_bary (o2 * qx a b c - o1 * qx d e f) (o2 * qy a b c - o1 * qy d e f) (o2 * qc a b c - o1 * qc d e f) a b c p) as E1.
  fold G in E1, E2. fold o1 in E1. fold o2 in E2. rewrite (GE a), (GE b), (GE c), V1, V2, V3 in E1. rewrite (GE d), (GE e), (GE f), V4, V5, V6 in E2. clearbody G. clear GE V1 V2 V3 V4 V5 V6.
  rewrite !Z.mul_0_r, !Z.sub_0_r in E2. rewrite !Z.mul_0_r, !Z.sub_0_l in E1. clearbody o1 o2.
  revert E1 E2 D1 D2 D3 A1 A2 A3. generalize (G p) (incircle a b c d) (incircle a b c e) (incircle a b c f) (incircle d e f a) (incircle d e f b) (incircle d e f c).
  revert I1 I2 I3 J1 J2 J3. generalize (orient a b p) (orient b c p) (orient c a p) (orient d e p) (orient e f p) (orient f d p).
  clear - O1 O2. intros w1 w2 w3 x1 x2 x3 I1 I2 I3 J1 J2 J3 g i1 i2 i3 j1 j2 j3 E1 E2 D1 D2 D3 A1 A2 A3.
  assert (P : forall u v w, 0 < u -> 0 < v -> w <= 0 -> u * (v * w) <= 0) by (intros u v w U V W; apply Z.mul_nonneg_nonpos; [lia|]; apply Z.mul_nonneg_nonpos; lia).
  assert (G0 : g = 0).
  { assert (g * o1 >= 0). { rewrite E1. pose proof (P w2 o1 j1 I2 O1 A1). pose proof (P w3 o1 j2 I3 O1 A2). pose proof (P w1 o1 j3 I1 O1 A3). lia. }
    assert (g * o2 <= 0). { rewrite E2. pose proof (P x2 o2 i1 J2 O2 D1). pose proof (P x3 o2 i2 J3 O2 D2). pose proof (P x1 o2 i3 J1 O2 D3). lia. }
    nia. }
  subst g. rewrite Z.mul_0_l in E2. pose proof (P x2 o2 i1 J2 O2 D1) as Q1. pose proof (P x3 o2 i2 J3 O2 D2) as Q2. pose proof (P x1 o2 i3 J1 O2 D3) as Q3.
  assert (Z0 : forall u v w, 0 < u -> 0 < v -> u * (v * w) = 0 -> w = 0) by (intros u v w U V W; apply Z.mul_eq_0 in W as [W|W]; [lia|]; apply Z.mul_eq_0 in W as [W|W]; lia).
  split; [|split]; [apply (Z0 x2 o2)|apply (Z0 x3 o2)|apply (Z0 x1 o2)]; auto; lia.
Qed.

(** (s p + t q) in units of 1/(s+t) *)
Definition mix (s t : Z) (p q : zpt) : zpt := (s * fst p + t * fst q, s * snd p + t * snd q).
Lemma mix_orient s t a b p q : orient (scaled (s + t) a) (scaled (s + t) b) (mix s t p q) = (s + t) * (s * orient a b p + t * orient a b q).
Proof. unfold mix, scaled. zpts. ring. Qed.
Lemma mix_orient_q s t a b p : orient (scaled (s + t) a) (scaled (s + t) b) (mix s t p b) = (s + t) * (s * orient a b p).
Proof. unfold mix, scaled. zpts. ring. Qed.
Lemma inside_mix s t a b c p q : 0 < s -> 0 <= t -> strictly_inside a b c p -> inside_or_on a b c q -> strictly_inside (scaled (s + t) a) (scaled (s + t) b) (scaled (s + t) c) (mix s t p q).
Proof.
  intros S T (P1 & P2 & P3) (Q1 & Q2 & Q3). unfold strictly_inside. rewrite !mix_orient.
  assert (X : forall x y, 0 < x -> 0 <= y -> 0 < (s + t) * (s * x + t * y)) by (intros x y X Y; apply Z.mul_pos_pos; [lia|]; assert (0 < s * x) by (apply Z.mul_pos_pos; auto); assert (0 <= t * y) by (apply Z.mul_nonneg_nonneg; auto); lia).
  split; [|split]; apply X; auto.
Qed.
(** a point inside one triangle and on another: there is a point inside both *)
Lemma both_inside a b c d e f p : strictly_inside a b c p -> inside_or_on d e f p -> 0 < orient d e f ->
  exists m q, 0 < m /\ strictly_inside (scaled m a) (scaled m b) (scaled m c) q /\ strictly_inside (scaled m d) (scaled m e) (scaled m f) q.
Proof.
  intros (P1 & P2 & P3) Q O.
  (* the centroid of d e f, in thirds *)
  set (g := (fst d + fst e + fst f, snd d + snd e + snd f)).
  assert (IG : strictly_inside (scaled 3 d) (scaled 3 e) (scaled 3 f) g).
  { unfold strictly_inside.
    assert (E1 : orient (scaled 3 d) (scaled 3 e) g = 3 * orient d e f) by (unfold g, scaled; zpts; ring).
    assert (E2 : orient (scaled 3 e) (scaled 3 f) g = 3 * orient d e f) by (unfold g, scaled; zpts; ring).
    assert (E3 : orient (scaled 3 f) (scaled 3 d) g = 3 * orient d e f) by (unfold g, scaled; zpts; ring).
    rewrite E1, E2, E3. lia. }
  set (p3 := scaled 3 p).
  assert (S9 : forall x y, orient (scaled 3 x) (scaled 3 y) p3 = 9 * orient x y p) by (intros; unfold p3; rewrite orient_scaled; ring).
  set (M := Z.abs (orient (scaled 3 a) (scaled 3 b) g) + Z.abs (orient (scaled 3 b) (scaled 3 c) g) + Z.abs (orient (scaled 3 c) (scaled 3 a) g) + 1).
  assert (M0 : 0 < M) by (unfold M; lia).
  exists ((M + 1) * 3), (mix M 1 p3 g). split; [lia|].
  assert (SS : forall x, scaled ((M + 1) * 3) x = scaled (M + 1) (scaled 3 x)) by (intro x; unfold scaled; cbn [fst snd]; f_equal; ring). rewrite !SS. split.
  - unfold strictly_inside. rewrite !mix_orient, !S9. split; [|split]; apply Z.mul_pos_pos; try lia; unfold M; nia.
  - assert (SW : mix M 1 p3 g = mix 1 M g p3) by (unfold mix; f_equal; ring). rewrite SW, (Z.add_comm M 1). apply inside_mix; try lia; [exact IG|].
    destruct Q as (Q1 & Q2 & Q3). unfold inside_or_on. rewrite !S9. lia.
Qed.

(** where a segment meets an edge *)
Lemma cramer4 X Y p V : orient X Y V * fst p - orient X Y p * fst V = orient p V X * fst Y - orient p V Y * fst X /\
  orient X Y V * snd p - orient X Y p * snd V = orient p V X * snd Y - orient p V Y * snd X.
Proof. split; zpts; ring. Qed.
Lemma diff4 X Y p V : orient p V X - orient p V Y = orient X Y V - orient X Y p.
Proof. zpts. ring. Qed.
Lemma meet X Y p V : orient X Y V <> 0 -> touches X Y p V ->
  exists s t s' t' r, 0 < s /\ 0 <= t /\ 0 <= s' /\ 0 <= t' /\ s' + t' = s + t /\ r = mix s t p V /\ r = mix s' t' X Y /\ orient (scaled (s + t) X) (scaled (s + t) Y) r = 0.
Proof.
  intros N [T1 T2]. destruct (cramer4 X Y p V) as [C1 C2]. pose proof (diff4 X Y p V) as D.
  set (s1 := orient X Y p) in *. set (s2 := orient X Y V) in *. set (ox := orient p V X) in *. set (oy := orient p V Y) in *.
  assert (XM : forall s t, s * s1 + t * s2 = 0 -> orient (scaled (s + t) X) (scaled (s + t) Y) (mix s t p V) = 0) by (intros s t Q; rewrite mix_orient; fold s1 s2; rewrite Q; apply Z.mul_0_r).
  clearbody s1 s2 ox oy.
  destruct (Z_lt_le_dec 0 s2) as [P|P].
  - assert (s1 <= 0) by nia. exists s2, (- s1), (- oy), ox, (mix s2 (- s1) p V). split; [lia|]. split; [lia|].
    assert (0 <= ox /\ oy <= 0) as [Q1 Q2] by (split; nia).
    split; [lia|]. split; [lia|]. split; [lia|]. split; [reflexivity|]. split; [unfold mix; f_equal; lia|]. apply XM. ring.
  - assert (s2 < 0) by lia. assert (0 <= s1) by nia. exists (- s2), s1, oy, (- ox), (mix (- s2) s1 p V). split; [lia|]. split; [lia|].
    assert (ox <= 0 /\ 0 <= oy) as [Q1 Q2] by (split; nia).
    split; [lia|]. split; [lia|]. split; [lia|]. split; [reflexivity|]. split; [unfold mix; f_equal; lia|]. apply XM. ring.
Qed.
Lemma on_mix s t a b c p q : 0 <= s -> 0 <= t -> inside_or_on a b c p -> inside_or_on a b c q -> inside_or_on (scaled (s + t) a) (scaled (s + t) b) (scaled (s + t) c) (mix s t p q).
Proof.
  intros S T (P1 & P2 & P3) (Q1 & Q2 & Q3). unfold inside_or_on. rewrite !mix_orient.
  assert (X : forall x y, 0 <= x -> 0 <= y -> 0 <= (s + t) * (s * x + t * y)) by (intros x y X Y; apply Z.mul_nonneg_nonneg; [lia|]; assert (0 <= s * x) by (apply Z.mul_nonneg_nonneg; auto); assert (0 <= t * y) by (apply Z.mul_nonneg_nonneg; auto); lia).
  split; [|split]; apply X; auto.
Qed.
Lemma corner_on a b c : 0 < orient a b c -> inside_or_on a b c a /\ inside_or_on a b c b /\ inside_or_on a b c c.
Proof.
  intro O. assert (Z1 : forall u v, orient u v u = 0) by (intros; zpts; ring). assert (Z2 : forall u v, orient u v v = 0) by (intros; zpts; ring).
  unfold inside_or_on. rewrite !Z1, !Z2, ?(orient_rot' a b c), ?(orient_rot a b c). lia.
Qed.
Lemma ccw_scaled m a b c : 0 < m -> 0 < orient a b c -> 0 < orient (scaled m a) (scaled m b) (scaled m c).
Proof. intros M O. rewrite orient_scaled. repeat apply Z.mul_pos_pos; auto. Qed.

Section Sees.
Variable n : nat.
Variable z : nat -> zpt.
Variable tris : list (nat * nat * nat).
Hypothesis TC : forall a b c, In (a, b, c) tris -> (a < n /\ b < n /\ c < n)%nat /\ 0 < orient (z a) (z b) (z c).
Hypothesis TO : forall i j t u k p, 0 < k -> nth_error tris i = Some t -> nth_error tris j = Some u -> point_in z t k p -> point_in z u k p -> i = j.
(** from inside a triangle one sees its corners: no side of a triangle is in between *)
Lemma sees u v k p w x y : In u tris -> corner v u -> 0 < k -> point_in z u k p -> In w tris -> joins w x y ->
  orient (z x) (z y) (z v) <> 0 -> ~ touches (scaled k (z x)) (scaled k (z y)) p (scaled k (z v)).
Proof.
  intros Iu Cv K0 PU Iw J N T.
  assert (NS : orient (scaled k (z x)) (scaled k (z y)) (scaled k (z v)) <> 0).
  { rewrite orient_scaled. intro Q. apply Z.mul_eq_0 in Q as [Q|Q]; [|exact (N Q)]. apply Z.mul_eq_0 in Q as [Q|Q]; lia. }
  destruct (meet _ _ _ _ NS T) as (s & t & s' & t' & r & S0 & T0 & S1 & T1 & EM & R1 & R2 & R0).
  destruct u as [[a b] c]. destruct w as [[d e] f]. destruct (TC a b c Iu) as (_ & O). destruct (TC d e f Iw) as (_ & O').
  pose proof (ccw_scaled k _ _ _ K0 O) as OK. pose proof (ccw_scaled k _ _ _ K0 O') as OK'.
  destruct (corner_on _ _ _ OK) as (CA & CB & CC). destruct (corner_on _ _ _ OK') as (CD & CE' & CF).
  assert (V : inside_or_on (scaled k (z a)) (scaled k (z b)) (scaled k (z c)) (scaled k (z v))) by (unfold corner in Cv; destruct Cv as [->|[->| ->]]; assumption).
  assert (RU : strictly_inside (scaled (s + t) (scaled k (z a))) (scaled (s + t) (scaled k (z b))) (scaled (s + t) (scaled k (z c))) r) by (rewrite R1; apply inside_mix; auto).
  assert (XY : inside_or_on (scaled k (z d)) (scaled k (z e)) (scaled k (z f)) (scaled k (z x)) /\ inside_or_on (scaled k (z d)) (scaled k (z e)) (scaled k (z f)) (scaled k (z y))).
  { unfold joins, sides in J. destruct J as [[J|[J|[J|[]]]]|[J|[J|[J|[]]]]]; injection J as -> ->; split; assumption. }
  assert (RW : inside_or_on (scaled (s + t) (scaled k (z d))) (scaled (s + t) (scaled k (z e))) (scaled (s + t) (scaled k (z f))) r) by (rewrite R2, <- EM; apply on_mix; tauto).
  assert (ST : 0 < s + t) by lia.
  destruct (both_inside _ _ _ _ _ _ r RU RW (ccw_scaled (s + t) _ _ _ ST OK')) as (m & q & M0 & B1 & B2).
  assert (SC : forall v, scaled m (scaled (s + t) (scaled k (z v))) = scaled (m * (s + t) * k) (z v)) by (intro v0; unfold scaled; cbn [fst snd]; f_equal; ring).
  rewrite !SC in B1, B2.
  apply In_nth_error in Iu as [i Iu], Iw as [j Iw].
  assert (i = j). { apply (TO i j (a, b, c) (d, e, f) (m * (s + t) * k) q); auto. repeat apply Z.mul_pos_pos; auto. }
  subst j. rewrite Iu in Iw. injection Iw as <- <- <-. destruct RU as (U1 & U2 & U3).
  assert (R0' : orient (scaled (s + t) (scaled k (z y))) (scaled (s + t) (scaled k (z x))) r = 0) by (rewrite orient_swap, R0; reflexivity).
  unfold joins, sides in J.
  destruct J as [[J|[J|[J|[]]]]|[J|[J|[J|[]]]]]; injection J as -> ->; rewrite ?R0, ?R0' in *; lia.
Qed.
End Sees.

(** ** two inputs that describe the same region *)
Definition in_region (z : nat -> zpt) (poly : list nat) (holes : list (list nat)) (k : Z) (p : zpt) : Prop :=
  wind (fun v => scaled k (z v)) poly p <> 0 /\ forall h, In h holes -> wind (fun v => scaled k (z v)) h p = 0.
Definition points_in (n1 : nat) (z1 : nat -> zpt) (n2 : nat) (z2 : nat -> zpt) : Prop :=
  forall v, (v < n1)%nat -> exists v', (v' < n2)%nat /\ z2 v' = z1 v.
Definition edges_in (z1 : nat -> zpt) (es1 : list (nat * nat)) (z2 : nat -> zpt) (es2 : list (nat * nat)) : Prop :=
  forall x y, In (x, y) es1 -> exists x' y', (In (x', y') es2 \/ In (y', x') es2) /\ z2 x' = z1 x /\ z2 y' = z1 y.
Definition general_position (n : nat) (z : nat -> zpt) : Prop :=
  forall i j k, (i < n)%nat -> (j < n)%nat -> (k < n)%nat -> i <> j -> j <> k -> i <> k -> orient (z i) (z j) (z k) <> 0.
Definition no_four_cocircular (n : nat) (z : nat -> zpt) : Prop :=
  forall a b c d, (a < n)%nat -> (b < n)%nat -> (c < n)%nat -> (d < n)%nat -> a <> b -> b <> c -> a <> c -> d <> a -> d <> b -> d <> c -> incircle (z a) (z b) (z c) (z d) <> 0.
(** the same corners, counter-clockwise from some corner *)
Definition same_triangle (a b c d e f : zpt) : Prop := (d = a /\ e = b /\ f = c) \/ (d = b /\ e = c /\ f = a) \/ (d = c /\ e = a /\ f = b).

Lemma fills_ccw_list n z poly holes ids : fills_region n z poly holes ids -> (forall a b c, In (a, b, c) (triples ids) -> (a < n /\ b < n /\ c < n)%nat /\ 0 < orient (z a) (z b) (z c)) /\
  (forall i j t u k p, 0 < k -> nth_error (triples ids) i = Some t -> nth_error (triples ids) j = Some u -> point_in z t k p -> point_in z u k p -> i = j).
Proof. intros (_ & A & B & _). split; assumption. Qed.
Lemma joins_swap t x y : joins t x y -> joins t y x. Proof. intros [H|H]; [right|left]; exact H. Qed.
Lemma side_ne a b c x y z : 0 < orient (z a) (z b) (z c) -> joins (a, b, c) x y -> z x <> z y.
Proof.
  intros O J E. assert (Z0 : forall u v, orient u u v = 0) by (intros; zpts; ring).
  unfold joins, sides in J. destruct J as [[J|[J|[J|[]]]]|[J|[J|[J|[]]]]]; injection J as -> ->.
  - rewrite E, Z0 in O. lia.
  - rewrite <- orient_rot, E, Z0 in O. lia.
  - rewrite <- orient_rot', E, Z0 in O. lia.
  - rewrite E, Z0 in O. lia.
  - rewrite <- orient_rot, E, Z0 in O. lia.
  - rewrite <- orient_rot', E, Z0 in O. lia.
Qed.

(** a triangle of the first: no corner of a triangle of the second that meets it is inside its circumcircle *)
Lemma no_corner_inside n1 z1 es1 ids1 n2 z2 es2 poly2 holes2 ids2 a b c u d m q :
  general_position n1 z1 -> (forall x y, In (x, y) es1 -> (x < n1 /\ y < n1)%nat) ->
  points_in n2 z2 n1 z1 -> edges_in z1 es1 z2 es2 ->
  constrained_delaunay n1 z1 es1 ids1 -> fills_region n2 z2 poly2 holes2 ids2 -> conforming es2 ids2 ->
  In (a, b, c) (triples ids1) -> In u (triples ids2) -> corner d u -> (d < n2)%nat -> 0 < m -> point_in z1 (a, b, c) m q -> point_in z2 u m q ->
  incircle (z1 a) (z1 b) (z1 c) (z2 d) <= 0.
Proof.
  intros GP RE PI EI CD FR [CF _] It Iu Cd Ld M0 P1 P2. destruct (PI d Ld) as (v & Lv & Ev). rewrite <- Ev.
  apply (CD a b c v m q It Lv M0 P1). intros x y Ie Nx Ny. destruct (RE x y Ie) as [Lx Ly]. destruct (EI x y Ie) as (x' & y' & Ie' & Ex & Ey). rewrite <- Ex, <- Ey, Ev.
  destruct (fills_ccw_list _ _ _ _ _ FR) as [TC TO].
  assert (W : exists w, In w (triples ids2) /\ joins w x' y').
  { destruct Ie' as [Ie'|Ie']; destruct (CF _ _ Ie') as (i & w & Iw & J & _); exists w; (split; [eapply nth_error_In; eauto|]); [exact J|apply joins_swap; exact J]. }
  destruct W as ([[w1 w2] w3] & Iw & J). apply (sees n2 z2 (triples ids2) TC TO u d m q (w1, w2, w3) x' y'); auto.
  rewrite Ex, Ey, <- Ev. apply GP; auto. intros ->. apply (side_ne w1 w2 w3 x' y' z2); [apply (TC w1 w2 w3 Iw)|exact J|congruence].
Qed.

Theorem cdt_unique n1 z1 es1 poly1 holes1 ids1 n2 z2 es2 poly2 holes2 ids2 :
  general_position n1 z1 -> general_position n2 z2 -> no_four_cocircular n1 z1 ->
  (forall x y, In (x, y) es1 -> (x < n1 /\ y < n1)%nat) -> (forall x y, In (x, y) es2 -> (x < n2 /\ y < n2)%nat) ->
  points_in n1 z1 n2 z2 -> points_in n2 z2 n1 z1 -> edges_in z1 es1 z2 es2 -> edges_in z2 es2 z1 es1 ->
  (forall k p, 0 < k -> in_region z1 poly1 holes1 k p -> in_region z2 poly2 holes2 k p) ->
  fills_region n1 z1 poly1 holes1 ids1 -> constrained_delaunay n1 z1 es1 ids1 -> conforming es1 ids1 ->
  fills_region n2 z2 poly2 holes2 ids2 -> constrained_delaunay n2 z2 es2 ids2 -> conforming es2 ids2 ->
  forall a b c, In (a, b, c) (triples ids1) -> exists d e f, In (d, e, f) (triples ids2) /\ same_triangle (z1 a) (z1 b) (z1 c) (z2 d) (z2 e) (z2 f).
Proof.
  intros G1 G2 NC R1 R2 P12 P21 E12 E21 REG F1 C1 K1 F2 C2 K2 a b c It.
  destruct (fills_ccw_list _ _ _ _ _ F1) as [TC1 _]. destruct (fills_ccw_list _ _ _ _ _ F2) as [TC2 _]. destruct (TC1 a b c It) as ((La & Lb & Lc) & O1).
  pose proof (near_vertex (z1 a) (z1 b) (z1 c) 1 O1 ltac:(lia)) as PV. cbv zeta in PV. set (p := (_, _)) in PV. change (1 + 2) with 3 in PV.
  pose proof F1 as (_ & _ & _ & W1 & _). destruct (W1 (a, b, c) 3 p It ltac:(lia) PV) as [W2 W3].
  pose proof (REG 3 p ltac:(lia) (conj W2 W3)) as [W4 W5].
  pose proof F2 as (_ & _ & _ & _ & CV & _). destruct (CV 3 p ltac:(lia) W4 W5) as ([[d e] f] & Iu & On). clear W1 W2 W3 W4 W5 CV REG.
  destruct (TC2 d e f Iu) as ((Ld & Le & Lf) & O2). unfold point_on in On.
  destruct (both_inside _ _ _ _ _ _ p PV On (ccw_scaled 3 _ _ _ ltac:(lia) O2)) as (m' & q & M' & B1 & B2).
  set (m := m' * 3). assert (M0 : 0 < m) by (unfold m; lia).
  assert (SC : forall v : zpt, scaled m' (scaled 3 v) = scaled m v) by (intro v; unfold scaled, m; cbn [fst snd]; f_equal; ring). rewrite !SC in B1, B2. clearbody m. clear SC m' M' PV On p.
  assert (PT : point_in z1 (a, b, c) m q) by exact B1. assert (PU : point_in z2 (d, e, f) m q) by exact B2.
  assert (N1 : forall v, corner v (d, e, f) -> (v < n2)%nat -> incircle (z1 a) (z1 b) (z1 c) (z2 v) <= 0).
  { intros v Cv Lv. apply (no_corner_inside n1 z1 es1 ids1 n2 z2 es2 poly2 holes2 ids2 a b c (d, e, f) v m q); assumption. }
  assert (N2 : forall v, corner v (a, b, c) -> (v < n1)%nat -> incircle (z2 d) (z2 e) (z2 f) (z1 v) <= 0).
  { intros v Cv Lv. apply (no_corner_inside n2 z2 es2 ids2 n1 z1 es1 poly1 holes1 ids1 d e f (a, b, c) v m q); assumption. }
  assert (CI : incircle (z1 a) (z1 b) (z1 c) (z2 d) = 0 /\ incircle (z1 a) (z1 b) (z1 c) (z2 e) = 0 /\ incircle (z1 a) (z1 b) (z1 c) (z2 f) = 0).
  { assert (Z4 : forall x, m * m * (m * m) * x = 0 -> x = 0) by (intros x Q; assert (0 < m * m * (m * m)) by (repeat apply Z.mul_pos_pos; auto); apply Z.mul_eq_0 in Q as [Q|Q]; lia).
    destruct (circles (scaled m (z1 a)) (scaled m (z1 b)) (scaled m (z1 c)) (scaled m (z2 d)) (scaled m (z2 e)) (scaled m (z2 f)) q) as (Q1 & Q2 & Q3);
      try (apply ccw_scaled; assumption); try assumption; try (rewrite incircle_scaled; apply scale_nonpos; [exact M0|]; (apply N1 || apply N2); try assumption; unfold corner; tauto).
    rewrite incircle_scaled in Q1, Q2, Q3. auto. }
  destruct CI as (I1 & I2 & I3). exists d, e, f. split; [exact Iu|].
  assert (CC : forall v, (v < n2)%nat -> incircle (z1 a) (z1 b) (z1 c) (z2 v) = 0 -> z2 v = z1 a \/ z2 v = z1 b \/ z2 v = z1 c).
  { intros v Lv Q. destruct (P21 v Lv) as (w & Lw & Ew). rewrite <- Ew in Q |- *.
    destruct (Nat.eq_dec w a) as [->|Na]; auto. destruct (Nat.eq_dec w b) as [->|Nb]; auto. destruct (Nat.eq_dec w c) as [->|Nc]; auto.
    exfalso. assert (Z0 : forall u v, orient u u v = 0) by (intros; zpts; ring).
    apply (NC a b c w La Lb Lc Lw); auto; intros ->; revert O1; [rewrite Z0|rewrite <- orient_rot, Z0|rewrite <- orient_rot', Z0]; lia. }
  apply CC in I1, I2, I3; auto. clear - O1 O2 I1 I2 I3. unfold same_triangle.
  assert (Z0 : forall u v, orient u u v = 0) by (intros; zpts; ring). assert (Z1 : forall u v, orient u v u = 0) by (intros; zpts; ring). assert (Z2 : forall u v, orient v u u = 0) by (intros; zpts; ring).
  assert (X1 : orient (z1 a) (z1 c) (z1 b) = - orient (z1 a) (z1 b) (z1 c)) by apply orient_swap'.
  assert (X2 : orient (z1 b) (z1 a) (z1 c) = - orient (z1 a) (z1 b) (z1 c)) by apply orient_swap.
  assert (X3 : orient (z1 c) (z1 b) (z1 a) = - orient (z1 a) (z1 b) (z1 c)) by (rewrite orient_rot; apply orient_swap').
  destruct I1 as [E1|[E1|E1]], I2 as [E2|[E2|E2]], I3 as [E3|[E3|E3]]; rewrite E1, E2, E3 in *; rewrite ?Z0, ?Z1, ?Z2, ?X1, ?X2, ?X3 in O2; auto 6; exfalso; lia.
Qed.
