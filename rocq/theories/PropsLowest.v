(** * PropsLowest: C58, the result interpolates x^2 + y^2 best *)
From Coq Require Import List Arith Bool Lia ZArith Permutation.
From Coq.Floats Require Import SpecFloat.
From Verif Require Import Base Num Shape ShapeSpec Utils Points Triangles Front Sweeper Cdt F64 Lists BuilderSpec History SortSpec Monad Traverse TraceSpec Grow
  Exact F64Exact FloatLaws Spec PropsBuilder PropsTrace PropsSafe FrontSpec Geom Mesh Setup Good Init Winding CoverRun Stokes Region PropsMesh PropsCover PropsMarks PropsRegion FillTotal Local PropsTotal PropsCup PropsTri F64Real IntSpec IntF64 IntRun IntHyp PropsInt PropsCdt PropsCdtInt PropsIntEx PropsCdtEx PropsOutcome CountAll PropsCount Unique PropsUnique Moved PropsMoved Turned PropsTurned PropsAdded PropsCarved.
Import ListNotations.
Local Open Scope Z_scope.

Definition norm2 (p : zpt) : Z := fst p * fst p + snd p * snd p.
(** the linear interpolation of x^2 + y^2 between the corners a, b, c, minus the true value, at q (times [orient a b c], twice the area) *)
Definition surplus (a b c q : zpt) : Z := orient b c q * norm2 a + orient c a q * norm2 b + orient a b q * norm2 c - orient a b c * norm2 q.
(** a triangle that could be used: its corners are input points, counter-clockwise, and no constrained edge passes through it *)
Definition usable (n : nat) (z : nat -> zpt) (es : list (nat * nat)) (t : nat * nat * nat) : Prop := let '(d, e, f) := t in
  (d < n /\ e < n /\ f < n)%nat /\ 0 < orient (z d) (z e) (z f) /\ forall x y k p, In (x, y) es -> 0 < k -> point_in z t k p -> ~ on_edge z k p x y.
Definition area_of (z : nat -> zpt) (k : Z) (t : nat * nat * nat) : Z := let '(a, b, c) := t in orient (scaled k (z a)) (scaled k (z b)) (scaled k (z c)).
Definition surplus_of (z : nat -> zpt) (k : Z) (t : nat * nat * nat) (q : zpt) : Z := let '(a, b, c) := t in surplus (scaled k (z a)) (scaled k (z b)) (scaled k (z c)) q.
(** at every point q/k strictly inside a triangle t of the list, no triangle u that could be used there interpolates better:
    surplus t / area t <= surplus u / area u *)
Definition lowest (n : nat) (z : nat -> zpt) (es : list (nat * nat)) (ids : list nat) : Prop := forall t u k q, In t (triples ids) -> usable n z es u -> 0 < k -> point_in z t k q -> point_in z u k q ->
  surplus_of z k t q * area_of z k u <= surplus_of z k u q * area_of z k t.
(** and every other one is worse *)
Definition strictly_lowest (n : nat) (z : nat -> zpt) (es : list (nat * nat)) (ids : list nat) : Prop := forall t u k q, In t (triples ids) -> usable n z es u -> 0 < k -> point_in z t k q -> point_in z u k q ->
  listed u ids \/ surplus_of z k t q * area_of z k u < surplus_of z k u q * area_of z k t.

Lemma surplus_incircle a b c q : surplus a b c q = incircle a b c q.
Proof. unfold surplus, norm2. zpts. ring. Qed.
Lemma lift_sum a b c d e f q : orient e f q * incircle a b c d + orient f d q * incircle a b c e + orient d e q * incircle a b c f = orient d e f * incircle a b c q - orient a b c * incircle d e f q.
Proof. zpts. ring. Qed.
Lemma usable_sees n z es d e f v k q : general_position n z -> (forall x y, In (x, y) es -> (x < n /\ y < n)%nat /\ x <> y) -> usable n z es (d, e, f) -> corner v (d, e, f) -> 0 < k -> point_in z (d, e, f) k q -> visible z es v k q.
Proof.
  intros GP RE ((Ld & Le & Lf) & O & F) Cv K0 P x y Ie Nx Ny T. destruct (RE x y Ie) as [[Lx Ly] NE].
  assert (Lv : (v < n)%nat) by (destruct Cv as [->|[->| ->]]; assumption).
  destruct (between_inside z d e f x y v k q O Cv K0 P) as (k' & p & K1 & P1 & OE); auto. exact (F x y k' p Ie K1 P1 OE).
Qed.
Lemma all_zero x y w a b c : 0 < x -> 0 < y -> 0 < w -> a <= 0 -> b <= 0 -> c <= 0 -> 0 <= x * a + y * b + w * c -> a = 0 /\ b = 0 /\ c = 0.
Proof.
  intros X Y W A B C H. assert (H1 : x * a <= 0) by (apply Z.mul_nonneg_nonpos; lia). assert (H2 : y * b <= 0) by (apply Z.mul_nonneg_nonpos; lia). assert (H3 : w * c <= 0) by (apply Z.mul_nonneg_nonpos; lia).
  assert (Z1 : forall u v, 0 < u -> u * v = 0 -> v = 0) by (intros u v U Q; apply Z.mul_eq_0 in Q; lia).
  split; [|split]; [apply (Z1 x)|apply (Z1 y)|apply (Z1 w)]; lia.
Qed.
Section Low.
Variables (n : nat) (z : nat -> zpt) (es : list (nat * nat)) (ids : list nat).
Hypothesis GP : general_position n z.
Hypothesis RE : forall x y, In (x, y) es -> (x < n /\ y < n)%nat /\ x <> y.
Hypothesis TC : ccw_tris n z (triples ids).
Hypothesis CD : constrained_delaunay n z es ids.
Lemma low_sum a b c d e f k q : In (a, b, c) (triples ids) -> usable n z es (d, e, f) -> 0 < k -> point_in z (a, b, c) k q -> point_in z (d, e, f) k q ->
  (forall v, corner v (d, e, f) -> incircle (scaled k (z a)) (scaled k (z b)) (scaled k (z c)) (scaled k (z v)) <= 0).
Proof using All.
  intros It U K0 PT PU v Cv. rewrite incircle_scaled. apply scale_nonpos; [exact K0|]. pose proof (usable_sees n z es d e f v k q GP RE U Cv K0 PU) as V.
  apply (CD a b c v k q It); auto. destruct U as ((Ld & Le & Lf) & _). destruct Cv as [->|[->| ->]]; assumption.
Qed.
Lemma low : lowest n z es ids.
Proof using All.
  intros [[a b] c] [[d e] f] k q It U K0 PT PU. cbn [surplus_of area_of]. rewrite !surplus_incircle. pose proof (low_sum a b c d e f k q It U K0 PT PU) as IC.
  pose proof (lift_sum (scaled k (z a)) (scaled k (z b)) (scaled k (z c)) (scaled k (z d)) (scaled k (z e)) (scaled k (z f)) q) as S.
  destruct PU as (U1 & U2 & U3). pose proof (IC d ltac:(unfold corner; auto)). pose proof (IC e ltac:(unfold corner; auto)). pose proof (IC f ltac:(unfold corner; auto)).
  assert (orient (scaled k (z e)) (scaled k (z f)) q * incircle (scaled k (z a)) (scaled k (z b)) (scaled k (z c)) (scaled k (z d)) <= 0) by (apply Z.mul_nonneg_nonpos; lia).
  assert (orient (scaled k (z f)) (scaled k (z d)) q * incircle (scaled k (z a)) (scaled k (z b)) (scaled k (z c)) (scaled k (z e)) <= 0) by (apply Z.mul_nonneg_nonpos; lia).
  assert (orient (scaled k (z d)) (scaled k (z e)) q * incircle (scaled k (z a)) (scaled k (z b)) (scaled k (z c)) (scaled k (z f)) <= 0) by (apply Z.mul_nonneg_nonpos; lia).
  lia.
Qed.
Lemma strictly_low : no_four_cocircular n z -> strictly_lowest n z es ids.
Proof using All.
  intros NC [[a b] c] [[d e] f] k q It U K0 PT PU. cbn [surplus_of area_of]. rewrite !surplus_incircle. pose proof (low_sum a b c d e f k q It U K0 PT PU) as IC.
  pose proof (lift_sum (scaled k (z a)) (scaled k (z b)) (scaled k (z c)) (scaled k (z d)) (scaled k (z e)) (scaled k (z f)) q) as S.
  destruct PU as (U1 & U2 & U3). pose proof (IC d ltac:(unfold corner; auto)) as Id. pose proof (IC e ltac:(unfold corner; auto)) as Ie. pose proof (IC f ltac:(unfold corner; auto)) as If.
  match goal with |- _ \/ ?l < ?r => destruct (Z_lt_le_dec l r) as [Q|Q]; [right; exact Q|left] end.
  destruct (all_zero _ _ _ _ _ _ U2 U3 U1 Id Ie If ltac:(lia)) as (Q1 & Q2 & Q3). destruct (TC a b c It) as ((La & Lb & Lc) & O1). pose proof U as ((Ld & Le & Lf) & O2 & _).
  rewrite incircle_scaled in Q1, Q2, Q3.
  assert (Z5 : forall x, k * k * (k * k) * x = 0 -> x = 0) by (intros x X; assert (0 < k * k * (k * k)) by (repeat apply Z.mul_pos_pos; auto); apply Z.mul_eq_0 in X as [X|X]; lia).
  apply Z5 in Q1, Q2, Q3. destruct (ccw_ne z a b c O1) as (N1 & N2 & N3).
  assert (CC : forall v, (v < n)%nat -> incircle (z a) (z b) (z c) (z v) = 0 -> v = a \/ v = b \/ v = c).
  { intros v Lv X. destruct (Nat.eq_dec v a) as [->|Na]; auto. destruct (Nat.eq_dec v b) as [->|Nb]; auto. destruct (Nat.eq_dec v c) as [->|Nc]; auto. exfalso. exact (NC a b c v La Lb Lc Lv N1 N2 N3 Na Nb Nc X). }
  apply CC in Q1, Q2, Q3; auto. destruct (ccw_ne z d e f O2) as (D1 & D2 & D3). clear - It O1 O2 Q1 Q2 Q3 D1 D2 D3.
  assert (X1 : orient (z a) (z c) (z b) = - orient (z a) (z b) (z c)) by apply orient_swap'.
  assert (X2 : orient (z b) (z a) (z c) = - orient (z a) (z b) (z c)) by apply orient_swap.
  assert (X3 : orient (z c) (z b) (z a) = - orient (z a) (z b) (z c)) by (rewrite orient_rot; apply orient_swap').
  unfold listed. destruct Q1 as [->|[->| ->]], Q2 as [->|[->| ->]], Q3 as [->|[->| ->]]; try contradiction; auto; rewrite ?X1, ?X2, ?X3 in O2; exfalso; lia.
Qed.
End Low.
Lemma proper_low n z poly holes ids : general_position n z -> (forall c v, In c (poly :: holes) -> In v c -> (v < n)%nat) -> proper_cdt n z (flat_map Stokes.cyc (poly :: holes)) poly holes ids ->
  lowest n z (flat_map Stokes.cyc (poly :: holes)) ids /\ (no_four_cocircular n z -> strictly_lowest n z (flat_map Stokes.cyc (poly :: holes)) ids).
Proof.
  intros GP RG C. destruct (proper_good _ _ _ _ _ C) as (TC & _ & _ & _ & CD & CE).
  assert (RE : forall x y, In (x, y) (flat_map Stokes.cyc (poly :: holes)) -> (x < n /\ y < n)%nat /\ x <> y).
  { intros x y Ie. split; [exact (ends_range n poly holes RG x y Ie)|]. destruct (CE x y Ie) as ([[w1 w2] w3] & Iw & J). intro Q. apply (side_ne w1 w2 w3 x y z (proj2 (TC w1 w2 w3 Iw)) J). rewrite Q. reflexivity. }
  split; [exact (low _ _ _ _ GP RE TC CD)|exact (strictly_low _ _ _ _ GP RE TC CD)].
Qed.

(** ** C58: finished runs on any f64 coordinates *)
Theorem C58_f64_finished_runs : forall PD dbg fuel (src : @source F64 PD) calls (b : @Builder F64 PD) t cbs, good_run PD dbg fuel src calls b t cbs ->
  let zs := coords (c_points (build PD b)) (length (history_points PD src calls)) in let es := history_edges PD src calls in
  exists ids, triangle_list_indices dbg PD t = Done ids /\ lowest (length zs) (zat zs) es ids /\ (no_four_cocircular (length zs) (zat zs) -> strictly_lowest (length zs) (zat zs) es ids).
Proof.
  intros PD dbg fuel src calls b t cbs G zs es. destruct (good_run_cdt _ _ _ _ _ _ _ _ G) as (ids & T & GP & RG & C). exists ids. split; [exact T|]. unfold es. rewrite <- contours_edges. exact (proper_low _ _ _ _ _ GP RG C).
Qed.
(** ** C58: integer inputs *)
Theorem C58_integer_inputs : forall PD (src : @source F64 PD) calls ue zs,
  unit_ok ue -> history_points PD src calls = map (grid ue) zs -> integer_input zs ->
  let es := history_edges PD src calls in
  edges_apart zs es -> (forall p q, In (p, q) es \/ In (q, p) es -> ~ capped zs p q) ->
  let poly := outer_contour PD src in let holes := hole_contours PD src calls in
  (forall c, In c (poly :: holes) -> (3 <= length c)%nat) -> holes_inside zs poly holes -> loose_points_allowed zs poly holes ->
  exists b, builder_of PD src calls = Done b /\
  forall dbg, exists t ids, (forall fuel, (steps (length zs) <= fuel)%nat -> triangulate dbg PD fuel (build PD b) = Done t) /\
    triangle_list_indices dbg PD t = Done ids /\ lowest (length zs) (zat zs) es ids /\ (no_four_cocircular (length zs) (zat zs) -> strictly_lowest (length zs) (zat zs) es ids).
Proof.
  intros PD src calls ue zs U HP IN es EA CU poly holes L3 HI LP.
  destruct (C28_integer_inputs_cdt_partial PD src calls ue zs U HP IN EA CU L3 HI LP) as (b & B & R). exists b. split; [exact B|]. intro dbg.
  destruct (R dbg) as (t & ids & T & X & C). exists t, ids. split; [exact T|]. split; [exact X|]. destruct (int_gp _ IN) as [_ GP].
  destruct (contours_range PD src calls) as [_ RG]. rewrite HP, map_length in RG. rewrite <- contours_edges in C. unfold es. rewrite <- contours_edges. exact (proper_low _ _ _ _ _ GP RG C).
Qed.
Theorem C58_polygon : forall zs, integer_input zs -> edges_apart zs (ring (length zs)) -> (forall p q, In (p, q) (ring (length zs)) \/ In (q, p) (ring (length zs)) -> ~ capped zs p q) ->
  forall dbg, exists ids, (forall fuel, (steps (length zs) <= fuel)%nat -> indices64 dbg fuel zs [] [] = Done ids) /\
    lowest (length zs) (zat zs) (ring (length zs)) ids /\ (no_four_cocircular (length zs) (zat zs) -> strictly_lowest (length zs) (zat zs) (ring (length zs)) ids).
Proof.
  intros zs IN EA CU dbg. destruct (C28_integer_polygon_cdt_partial zs IN EA CU dbg) as (ids & T & C). exists ids. split; [exact T|]. destruct (int_gp _ IN) as [_ GP].
  assert (E : ring (length zs) = flat_map Stokes.cyc [seq 0 (length zs)]) by (cbn [flat_map]; rewrite app_nil_r, cyc_seq; unfold History.cyc, ring; apply map_ext_in; intros i Ii; reflexivity).
  rewrite E in *. apply proper_low; [exact GP| |exact C]. intros c v [<-|[]] Iv. apply in_seq in Iv. lia.
Qed.
Theorem C58_convex_polygon : forall zs, integer_input zs -> convex_polygon zs ->
  forall dbg, exists ids, (forall fuel, (steps (length zs) <= fuel)%nat -> indices64 dbg fuel zs [] [] = Done ids) /\
    lowest (length zs) (zat zs) (ring (length zs)) ids /\ (no_four_cocircular (length zs) (zat zs) -> strictly_lowest (length zs) (zat zs) (ring (length zs)) ids).
Proof. intros zs IN C dbg. destruct (convex_no_cap zs IN C) as [EA CU]. apply C58_polygon; assumption. Qed.

(** every edge has both ends beyond or on one side of the triangle *)
Definition usableb (zs : list zpt) (es : list (nat * nat)) (t : nat * nat * nat) : bool := let z := zat zs in let n := length zs in let '(d, e, f) := t in
  ((d <? n) && (e <? n) && (f <? n))%nat && (0 <? orient (z d) (z e) (z f)) &&
  forallb (fun xy => existsb (fun s => (orient (z (fst s)) (z (snd s)) (z (fst xy)) <=? 0) && (orient (z (fst s)) (z (snd s)) (z (snd xy)) <=? 0)) [(d, e); (e, f); (f, d)]) es.
Lemma usableb_ok zs es t : usableb zs es t = true -> usable (length zs) (zat zs) es t.
Proof.
  destruct t as [[d e] f]. unfold usableb. intro H. apply andb_true_iff in H as [H F]. apply andb_true_iff in H as [L O]. apply andb_true_iff in L as [L Lf]. apply andb_true_iff in L as [Ld Le].
  apply Nat.ltb_lt in Ld, Le, Lf. apply Z.ltb_lt in O. split; [auto|]. split; [exact O|]. intros x y k p Ie K0 (P1 & P2 & P3) (s & t & S0 & T0 & ST & EM).
  rewrite forallb_forall in F. specialize (F _ Ie). cbn [fst snd] in F. apply existsb_exists in F as ([u v] & Is & F). cbn [fst snd] in F. apply andb_true_iff in F as [F1 F2]. apply Z.leb_le in F1, F2.
  assert (P : 0 < orient (scaled k (zat zs u)) (scaled k (zat zs v)) p) by (destruct Is as [Q|[Q|[Q|[]]]]; injection Q as <- <-; assumption).
  assert (A : 0 < orient (scaled (s + t) (scaled k (zat zs u))) (scaled (s + t) (scaled k (zat zs v))) (scaled (s + t) p)) by (rewrite orient_scaled; repeat apply Z.mul_pos_pos; auto).
  rewrite EM, mix_orient, !orient_scaled in A.
  assert (KK : 0 <= k * k) by (apply Z.mul_nonneg_nonneg; lia).
  assert (B1 : s * (k * k * orient (zat zs u) (zat zs v) (zat zs x)) <= 0) by (apply Z.mul_nonneg_nonpos; [lia|apply Z.mul_nonneg_nonpos; auto]).
  assert (B2 : t * (k * k * orient (zat zs u) (zat zs v) (zat zs y)) <= 0) by (apply Z.mul_nonneg_nonpos; [lia|apply Z.mul_nonneg_nonpos; auto]).
  assert (B3 : (s + t) * (s * (k * k * orient (zat zs u) (zat zs v) (zat zs x)) + t * (k * k * orient (zat zs u) (zat zs v) (zat zs y))) <= 0) by (apply Z.mul_nonneg_nonpos; lia). lia.
Qed.
(** in the star: 7-1-3 is in the result, 5-7-1 could be used as well; at a point inside both the first is better *)
Example star_lowest : usable 8 (zat star) (ring 8) (5, 7, 1)%nat /\ point_in (zat star) (7, 1, 3)%nat 1 (26, 24) /\ point_in (zat star) (5, 7, 1)%nat 1 (26, 24) /\
  forall dbg, exists ids, (forall fuel, (steps 8 <= fuel)%nat -> indices64 dbg fuel star [] [] = Done ids) /\
    In (7, 1, 3)%nat (triples ids) /\ ~ listed (5, 7, 1)%nat ids /\
    surplus_of (zat star) 1 (7, 1, 3)%nat (26, 24) * area_of (zat star) 1 (5, 7, 1)%nat < surplus_of (zat star) 1 (5, 7, 1)%nat (26, 24) * area_of (zat star) 1 (7, 1, 3)%nat.
Proof.
  destruct star_ok as (H1 & H2 & H3 & _).
  assert (U : usable 8 (zat star) (ring 8) (5, 7, 1)%nat) by (apply (usableb_ok star); vm_compute; reflexivity).
  assert (PT : point_in (zat star) (7, 1, 3)%nat 1 (26, 24)) by (vm_compute; auto). assert (PU : point_in (zat star) (5, 7, 1)%nat 1 (26, 24)) by (vm_compute; auto).
  assert (NC : no_four_cocircular 8 (zat star)) by (apply (cocircularb_ok star); vm_compute; reflexivity).
  split; [exact U|]. split; [exact PT|]. split; [exact PU|]. intro dbg. destruct (C58_polygon star H1 H2 H3 dbg) as (ids & T & _ & SL). exists ids. split; [exact T|]. specialize (SL NC).
  assert (R : indices64 dbg 300 star [] [] = Done [7;0;1; 7;1;3; 5;7;3; 6;7;5; 5;3;4; 3;1;2]%nat) by (destruct dbg; vm_compute; reflexivity).
  assert (F : (300 <= steps 8)%nat) by (unfold steps; lia). pose proof (indices64_more dbg 300 (steps 8) star [] [] _ F R) as Y. change (length star) with 8%nat in T. rewrite (T _ (le_n _)) in Y. injection Y as ->.
  assert (It : In (7, 1, 3)%nat (triples [7;0;1; 7;1;3; 5;7;3; 6;7;5; 5;3;4; 3;1;2]%nat)) by (cbn; tauto).
  assert (NL : ~ listed (5, 7, 1)%nat [7;0;1; 7;1;3; 5;7;3; 6;7;5; 5;3;4; 3;1;2]%nat) by (intros [X|[X|X]]; cbn in X; repeat (destruct X as [X|X]; [discriminate X|]); exact X).
  split; [exact It|]. split; [exact NL|]. destruct (SL (7, 1, 3)%nat (5, 7, 1)%nat 1 (26, 24) It U ltac:(lia) PT PU) as [X|X]; [contradiction|exact X].
Qed.
Print Assumptions C58_f64_finished_runs.
Print Assumptions C58_integer_inputs.
Print Assumptions C58_polygon.
Print Assumptions C58_convex_polygon.
