(** * PropsCarved: C56, adding a hole changes only the triangles around it *)
From Coq Require Import List Arith Bool Lia ZArith Permutation.
From Coq.Floats Require Import SpecFloat.
From Verif Require Import Base Num Shape ShapeSpec Utils Points Triangles Front Sweeper Cdt F64 Lists BuilderSpec History SortSpec Monad Traverse TraceSpec Grow
  Exact F64Exact FloatLaws Spec PropsBuilder PropsTrace PropsSafe FrontSpec Geom Mesh Setup Good Init Winding CoverRun Stokes Region PropsMesh PropsCover PropsMarks PropsRegion FillTotal Local PropsTotal PropsCup PropsTri F64Real IntSpec IntF64 IntRun IntHyp PropsInt PropsCdt PropsCdtInt PropsIntEx PropsCdtEx PropsOutcome CountAll PropsCount Unique PropsUnique Moved PropsMoved Turned PropsTurned PropsAdded.
Import ListNotations.
Local Open Scope nat_scope.

(** p/k is on the edge from x to y: a weighted mean of its ends *)
Definition on_edge (z : nat -> zpt) (k : Z) (p : zpt) (x y : nat) : Prop := exists s t, (0 <= s)%Z /\ (0 <= t)%Z /\ (0 < s + t)%Z /\ scaled (s + t) p = mix s t (scaled k (z x)) (scaled k (z y)).
(** some point strictly inside the triangle is inside the hole or on its boundary *)
Definition meets_hole (z : nat -> zpt) (h : list nat) (t : nat * nat * nat) : Prop := exists k p, (0 < k)%Z /\ point_in z t k p /\
  (wind (fun v => scaled k (z v)) h p <> 0%Z \/ exists x y, In (x, y) (Stokes.cyc h) /\ on_edge z k p x y).
(** ids2 (with the holes [more] added, and the points from number n1 on) against ids1: a triangle of ids1 stays exactly if it meets no
    added hole and no added point, seen from inside it, is in its circumcircle; es: the edges of the second input *)
Definition carved (zs : list zpt) (es : list (nat * nat)) (n1 : nat) (more : list (list nat)) (ids1 ids2 : list nat) : Prop :=
  forall t, In t (triples ids1) -> listed t ids2 <-> ~ disturbed zs es n1 t /\ forall h, In h more -> ~ meets_hole (zat zs) h t.

Local Open Scope Z_scope.
(** no edge passes through the inside of a triangle *)
Lemma edge_outside n z poly holes tris u x y k p : ccw_tris n z tris -> apart_tris z tris -> edges_tris poly holes tris ->
  In u tris -> 0 < k -> point_in z u k p -> In (x, y) (flat_map Stokes.cyc (poly :: holes)) -> on_edge z k p x y -> False.
Proof.
  intros TC TO CF Iu K0 PU Ie (s & t & S0 & T0 & ST & EM). destruct (CF x y Ie) as ([[d e] f] & Iw & J).
  destruct u as [[a b] c]. destruct (TC a b c Iu) as (_ & O). destruct (TC d e f Iw) as (_ & O').
  pose proof (ccw_scaled k _ _ _ K0 O) as OK. pose proof (ccw_scaled k _ _ _ K0 O') as OK'.
  destruct (corner_on _ _ _ OK') as (CD & CE' & CF').
  assert (XY : inside_or_on (scaled k (z d)) (scaled k (z e)) (scaled k (z f)) (scaled k (z x)) /\ inside_or_on (scaled k (z d)) (scaled k (z e)) (scaled k (z f)) (scaled k (z y))).
  { unfold joins, sides in J. destruct J as [[J|[J|[J|[]]]]|[J|[J|[J|[]]]]]; injection J as -> ->; split; assumption. }
  assert (RU : strictly_inside (scaled (s + t) (scaled k (z a))) (scaled (s + t) (scaled k (z b))) (scaled (s + t) (scaled k (z c))) (scaled (s + t) p)).
  { unfold point_in, strictly_inside in *. rewrite !orient_scaled. destruct PU as (U1 & U2 & U3). split; [|split]; repeat apply Z.mul_pos_pos; auto. }
  assert (RW : inside_or_on (scaled (s + t) (scaled k (z d))) (scaled (s + t) (scaled k (z e))) (scaled (s + t) (scaled k (z f))) (scaled (s + t) p)) by (rewrite EM; apply on_mix; tauto).
  destruct (both_inside _ _ _ _ _ _ _ RU RW (ccw_scaled (s + t) _ _ _ ST OK')) as (m & q & M0 & B1 & B2).
  assert (SC : forall v, scaled m (scaled (s + t) (scaled k (z v))) = scaled (m * (s + t) * k) (z v)) by (intro v0; unfold scaled; cbn [fst snd]; f_equal; ring).
  rewrite !SC in B1, B2. apply In_nth_error in Iu as [i Iu], Iw as [j Iw].
  assert (i = j). { apply (TO i j (a, b, c) (d, e, f) (m * (s + t) * k) q); auto. repeat apply Z.mul_pos_pos; auto. }
  subst j. rewrite Iu in Iw. injection Iw as <- <- <-. destruct RU as (U1 & U2 & U3).
  assert (Z1 : forall u v, orient u v u = 0) by (intros; zpts; ring). assert (Z2 : forall u v, orient u v v = 0) by (intros; zpts; ring).
  assert (R0 : orient (scaled (s + t) (scaled k (z x))) (scaled (s + t) (scaled k (z y))) (scaled (s + t) p) = 0) by (rewrite EM, mix_orient, Z1, Z2; ring).
  assert (R0' : orient (scaled (s + t) (scaled k (z y))) (scaled (s + t) (scaled k (z x))) (scaled (s + t) p) = 0) by (rewrite orient_swap, R0; reflexivity).
  unfold joins, sides in J.
  destruct J as [[J|[J|[J|[]]]]|[J|[J|[J|[]]]]]; injection J as -> ->; rewrite ?R0, ?R0' in *; lia.
Qed.
(** what stands between a point inside the triangle and a corner of it, stands inside the triangle *)
Lemma between_inside z a b c x y v k q : 0 < orient (z a) (z b) (z c) -> corner v (a, b, c) -> 0 < k -> point_in z (a, b, c) k q -> orient (z x) (z y) (z v) <> 0 ->
  touches (scaled k (z x)) (scaled k (z y)) q (scaled k (z v)) -> exists k' p, 0 < k' /\ point_in z (a, b, c) k' p /\ on_edge z k' p x y.
Proof.
  intros O Cv K0 PU N T. pose proof (ccw_scaled k _ _ _ K0 O) as OK. destruct (corner_on _ _ _ OK) as (CA & CB & CC).
  assert (NS : orient (scaled k (z x)) (scaled k (z y)) (scaled k (z v)) <> 0).
  { rewrite orient_scaled. intro Q. apply Z.mul_eq_0 in Q as [Q|Q]; [|exact (N Q)]. apply Z.mul_eq_0 in Q as [Q|Q]; lia. }
  destruct (meet _ _ _ _ NS T) as (s & t & s' & t' & r & S0 & T0 & S1 & T1 & EM & R1 & R2 & R0).
  assert (V : inside_or_on (scaled k (z a)) (scaled k (z b)) (scaled k (z c)) (scaled k (z v))) by (unfold corner in Cv; destruct Cv as [->|[->| ->]]; assumption).
  assert (RU : strictly_inside (scaled (s + t) (scaled k (z a))) (scaled (s + t) (scaled k (z b))) (scaled (s + t) (scaled k (z c))) r) by (rewrite R1; apply inside_mix; auto).
  exists ((s + t) * k), r. split; [apply Z.mul_pos_pos; lia|]. rewrite !scaled_scaled in RU. split; [exact RU|].
  exists s', t'. split; [exact S1|]. split; [exact T1|]. split; [lia|]. rewrite EM, R2. unfold mix, scaled. cbn [fst snd]. f_equal; ring.
Qed.
Section Carved.
Variables (n1 n2 : nat) (z : nat -> zpt) (poly : list nat) (holes more : list (list nat)) (tris1 tris2 : list (nat * nat * nat)).
Notation es1 := (flat_map Stokes.cyc (poly :: holes)).
Notation es2 := (flat_map Stokes.cyc (poly :: (holes ++ more))).
Hypothesis LN : (n1 <= n2)%nat.
Hypothesis GP : general_position n2 z.
Hypothesis NC : no_four_cocircular n2 z.
Hypothesis RG1 : forall c v, In c (poly :: holes) -> In v c -> (v < n1)%nat.
Hypothesis RG2 : forall c v, In c (poly :: holes ++ more) -> In v c -> (v < n2)%nat.
Hypothesis G1 : good_tris n1 z poly holes tris1.
Hypothesis G2 : good_tris n2 z poly (holes ++ more) tris2.
Let RG12 : forall c v, In c (poly :: holes) -> In v c -> (v < n2)%nat. Proof. intros c v Ic Iv. pose proof (RG1 c v Ic Iv). lia. Qed.
Let TC1 : ccw_tris n2 z tris1. Proof. intros a b c I'. destruct (proj1 G1 a b c I') as ((La & Lb & Lc) & O). split; [lia|exact O]. Qed.
Lemma edges_grow x y : In (x, y) es1 -> In (x, y) es2.
Proof using. intro H. apply in_flat_map in H as (c & Ic & H). apply in_flat_map. exists c. split; [|exact H]. destruct Ic as [<-|Ic]; [left; reflexivity|right; apply in_or_app; auto]. Qed.
Lemma edges_split x y : In (x, y) es2 -> In (x, y) es1 \/ exists h, In h more /\ In (x, y) (Stokes.cyc h).
Proof using.
  intro H. apply in_flat_map in H as (c & [<-|Ic] & H); [left; apply in_flat_map; exists poly; split; [left; reflexivity|exact H]|].
  apply in_app_or in Ic as [Ic|Ic]; [left; apply in_flat_map; exists c; split; [right; exact Ic|exact H]|right; eauto].
Qed.
Lemma carved_stays a b c : In (a, b, c) tris1 ->
  (forall v k p, (n1 <= v < n2)%nat -> 0 < k -> point_in z (a, b, c) k p -> visible z es2 v k p -> incircle (z a) (z b) (z c) (z v) <= 0) ->
  (forall h, In h more -> ~ meets_hole z h (a, b, c)) ->
  In (a, b, c) tris2 \/ In (b, c, a) tris2 \/ In (c, a, b) tris2.
Proof using All.
  intros It NEW NH. pose proof G1 as (TC1' & TO1 & W1 & CV1 & CD1 & CE1). pose proof G2 as (TC2 & TO2 & W2 & CV2 & CD2 & CE2).
  destruct (TC1 a b c It) as ((La & Lb & Lc) & O1).
  assert (X : exists d e f k q, In (d, e, f) tris2 /\ 0 < k /\ point_in z (a, b, c) k q /\ point_in z (d, e, f) k q).
  { apply (common_point n2 z poly (holes ++ more) GP RG2 ((a, b, c) :: tris2) tris2 a b c); [| | |exact TC2|exact CV2|left; reflexivity].
    - intros u v w [Q|I']; [injection Q as <- <- <-; apply TC1; exact It|apply TC2; exact I'].
    - intros t k p [<-|I'] K0 P OL; [|apply (W2 t k p I' K0 P OL)].
      destruct (W1 _ k p It K0 P) as [R1 R2]. { intros x y Ie. apply OL. apply edges_grow. exact Ie. }
      split; [exact R1|]. intros h Ih. apply in_app_or in Ih as [Ih|Ih]; [apply R2; exact Ih|].
      destruct (Z.eq_dec (wind (fun v => scaled k (z v)) h p) 0) as [Q|Q]; [exact Q|]. exfalso. apply (NH h Ih). exists k, p. auto.
    - intros x y Ie. destruct (CE2 x y Ie) as (w & Iw & J). exists w. split; [right; exact Iw|exact J]. }
  destruct X as (d & e & f & k & q & Iu & KP & PT & PU). destruct (TC2 d e f Iu) as ((Ld & Le & Lf) & O2).
  assert (L1 : forall v, corner v (a, b, c) -> (v < n2)%nat) by (intros v [->|[->| ->]]; assumption).
  assert (L2 : forall v, corner v (d, e, f) -> (v < n2)%nat) by (intros v [->|[->| ->]]; assumption).
  assert (SEE : forall v, corner v (d, e, f) -> visible z es2 v k q) by (intros v Cv; exact (corner_seen n2 z poly (holes ++ more) GP RG2 tris2 (d, e, f) v k q TC2 TO2 CE2 Iu Cv (L2 v Cv) KP PU)).
  destruct (meet_same n2 z NC a b c d e f k q) as [E|[E|E]]; auto; try (rewrite <- E; auto).
  - intros v Cv. destruct (Nat.lt_ge_cases v n1) as [Lv|Lv].
    + apply (CD1 a b c v k q It Lv KP PT). intros x y Ie. apply SEE; auto. apply edges_grow. exact Ie.
    + apply (NEW v k q); auto.
  - intros v Cv. apply (CD2 d e f v k q Iu (L1 v Cv) KP PU). intros x y Ie Nx Ny T. destruct (edges_split x y Ie) as [I1|(h & Ih & I2)].
    + exact (corner_seen n2 z poly holes GP RG12 tris1 (a, b, c) v k q TC1 TO1 CE1 It Cv (L1 v Cv) KP PT x y I1 Nx Ny T).
    + destruct (ends_range n2 poly (holes ++ more) RG2 x y Ie) as [Lx Ly]. destruct (CE2 x y Ie) as ([[w1 w2] w3] & Iw & J).
      apply (NH h Ih). destruct (between_inside z a b c x y v k q O1 Cv KP PT) as (k' & p & K1 & P1 & OE); auto.
      { apply GP; auto. intro Q. apply (side_ne w1 w2 w3 x y z (proj2 (TC2 w1 w2 w3 Iw)) J). rewrite Q. reflexivity. }
      exists k', p. split; [exact K1|]. split; [exact P1|]. right. exists x, y. auto.
Qed.
End Carved.
Local Open Scope nat_scope.
Lemma meets_rot z h a b c : meets_hole z h (a, b, c) -> meets_hole z h (b, c, a).
Proof. intros (k & p & K0 & (P1 & P2 & P3) & R). exists k, p. split; [exact K0|]. split; [split; auto|exact R]. Qed.
Lemma carved_lists zs xs poly holes more ids1 ids2 : general_position (length (zs ++ xs)) (zat (zs ++ xs)) -> no_four_cocircular (length (zs ++ xs)) (zat (zs ++ xs)) ->
  (forall c v, In c (poly :: holes) -> In v c -> v < length zs) -> (forall c v, In c (poly :: holes ++ more) -> In v c -> v < length (zs ++ xs)) ->
  proper_cdt (length zs) (zat zs) (flat_map Stokes.cyc (poly :: holes)) poly holes ids1 -> proper_cdt (length (zs ++ xs)) (zat (zs ++ xs)) (flat_map Stokes.cyc (poly :: holes ++ more)) poly (holes ++ more) ids2 ->
  carved (zs ++ xs) (flat_map Stokes.cyc (poly :: holes ++ more)) (length zs) more ids1 ids2.
Proof.
  intros GP NC RG RG2 C1 C2.
  assert (LN : length zs <= length (zs ++ xs)) by (rewrite app_length; lia).
  assert (C1' : proper_cdt (length zs) (zat (zs ++ xs)) (flat_map Stokes.cyc (poly :: holes)) poly holes ids1).
  { apply (move_cdt (length zs) (zat (zs ++ xs)) (zat zs) (flat_map Stokes.cyc (poly :: holes)) poly holes 1 (0, 0)%Z); auto; [lia| |apply edges_range; exact RG].
    intros v Lv. rewrite moved_id. symmetry. apply zat_app1. exact Lv. }
  assert (FR : forall t k p h, In t (triples ids2) -> (0 < k)%Z -> point_in (zat (zs ++ xs)) t k p -> In h more -> wind (fun v => scaled k (zat (zs ++ xs) v)) h p = 0%Z).
  { intros t k p h I' K0 P Ih. destruct C2 as ((_ & _ & _ & W & _) & _). apply (W t k p I' K0 P). apply in_or_app. right. exact Ih. }
  assert (ME : forall t h, In t (triples ids2) -> In h more -> ~ meets_hole (zat (zs ++ xs)) h t).
  { intros t h I' Ih (k & p & K0 & P & [Q|(x & y & Ie & OE)]); [exact (Q (FR t k p h I' K0 P Ih))|].
    destruct (proper_good _ _ _ _ _ C2) as (TC2 & TO2 & _ & _ & _ & CE2). apply (edge_outside _ _ _ _ _ t x y k p TC2 TO2 CE2 I' K0 P); [|exact OE].
    apply in_flat_map. exists h. split; [right; apply in_or_app; auto|exact Ie]. }
  apply proper_good in C1'. pose proof (proper_good _ _ _ _ _ C2) as G2. intros [[a b] c] I'. split.
  - intro L. split.
    + intros (v & k & p & Lv & K0 & P & V & IC). pose proof (stays_empty _ _ _ _ _ G2 a b c v k p L (proj2 Lv) K0 P V). lia.
    + intros h Ih M. destruct L as [L|[L|L]]; [apply (ME _ h L Ih M)|apply (ME _ h L Ih), meets_rot, M|apply (ME _ h L Ih), meets_rot, meets_rot, M].
  - intros [ND NH]. apply (carved_stays _ _ _ _ _ _ _ _ LN GP NC RG RG2 C1' G2 a b c I'); [|exact NH]. intros v k p Lv K0 P V.
    destruct (Z_lt_le_dec 0 (incircle (zat (zs ++ xs) a) (zat (zs ++ xs) b) (zat (zs ++ xs) c) (zat (zs ++ xs) v))) as [Q|Q]; [|exact Q]. exfalso. apply ND. exists v, k, p. auto.
Qed.

(** ** C56: finished runs on any f64 coordinates *)
Theorem C56_f64_finished_runs : forall PD1 PD2 dbg1 dbg2 fuel1 fuel2 (src1 : @source F64 PD1) calls1 (b1 : @Builder F64 PD1) t1 cbs1 (src2 : @source F64 PD2) calls2 (b2 : @Builder F64 PD2) t2 cbs2 xs more,
  good_run PD1 dbg1 fuel1 src1 calls1 b1 t1 cbs1 -> good_run PD2 dbg2 fuel2 src2 calls2 b2 t2 cbs2 ->
  outer_contour PD2 src2 = outer_contour PD1 src1 -> hole_contours PD2 src2 calls2 = hole_contours PD1 src1 calls1 ++ more ->
  let zs1 := coords (c_points (build PD1 b1)) (length (history_points PD1 src1 calls1)) in let zs2 := coords (c_points (build PD2 b2)) (length (history_points PD2 src2 calls2)) in
  zs2 = zs1 ++ xs -> no_four_cocircular (length zs2) (zat zs2) ->
  exists ids1 ids2, triangle_list_indices dbg1 PD1 t1 = Done ids1 /\ triangle_list_indices dbg2 PD2 t2 = Done ids2 /\ carved zs2 (history_edges PD2 src2 calls2) (length zs1) more ids1 ids2.
Proof.
  intros PD1 PD2 dbg1 dbg2 fuel1 fuel2 src1 calls1 b1 t1 cbs1 src2 calls2 b2 t2 cbs2 xs more G1 G2 EP EH zs1 zs2 E NC.
  destruct (good_run_cdt _ _ _ _ _ _ _ _ G1) as (ids1 & T1 & P1 & R1 & C1). destruct (good_run_cdt _ _ _ _ _ _ _ _ G2) as (ids2 & T2 & P2 & R2 & C2).
  exists ids1, ids2. split; [exact T1|]. split; [exact T2|]. fold zs1 in P1, R1, C1. fold zs2 in P2, R2, C2. rewrite <- contours_edges. rewrite EP, EH in *. rewrite E in *.
  apply carved_lists; assumption.
Qed.

(** ** C56: integer inputs *)
Section CarveInt.
Variables zs xs : list zpt.
Notation zs2 := (zs ++ xs).
Lemma carved_apart es es' : (forall x y, In (x, y) es -> x < length zs /\ y < length zs) -> (forall x y, In (x, y) es -> In (x, y) es') -> edges_apart zs2 es' -> edges_apart zs es.
Proof.
  intros RE SB EA [x y] [u w] J1 J2. pose proof (EA (x, y) (u, w) (SB _ _ J1) (SB _ _ J2)) as X. cbn [fst snd] in *. destruct (RE x y J1), (RE u w J2). rewrite !zat_app1 in X by assumption. exact X.
Qed.
Lemma carved_holes poly holes more : (forall c v, In c (poly :: holes) -> In v c -> v < length zs) -> holes_inside zs2 poly (holes ++ more) -> holes_inside zs poly holes.
Proof.
  intros RG H k p h K0 Ih W.
  assert (E : forall c, In c (poly :: holes) -> wind (fun v => scaled k (zat zs2 v)) c p = wind (fun v => scaled k (zat zs v)) c p).
  { intros c Ic. apply wind_ext. intros v Iv. rewrite zat_app1 by (eapply RG; eauto). reflexivity. }
  rewrite <- E in W by (right; exact Ih). destruct (H k p h K0 (in_or_app _ _ _ (or_introl Ih)) W) as [A B]. split; [rewrite <- E by (left; reflexivity); exact A|]. intros h' Ih' N. rewrite <- E by (right; exact Ih'). apply B; [apply in_or_app; auto|exact N].
Qed.
End CarveInt.
Theorem C56_carved : forall PD1 PD2 (src1 : @source F64 PD1) calls1 zs (src2 : @source F64 PD2) calls2 xs more ue1 ue2,
  unit_ok ue1 -> history_points PD1 src1 calls1 = map (grid ue1) zs -> integer_input zs -> unit_ok ue2 -> history_points PD2 src2 calls2 = map (grid ue2) (zs ++ xs) -> integer_input (zs ++ xs) ->
  no_four_cocircular (length (zs ++ xs)) (zat (zs ++ xs)) ->
  outer_contour PD2 src2 = outer_contour PD1 src1 -> hole_contours PD2 src2 calls2 = hole_contours PD1 src1 calls1 ++ more ->
  let poly := outer_contour PD1 src1 in let holes := hole_contours PD1 src1 calls1 in let es := history_edges PD2 src2 calls2 in
  (forall c, In c (poly :: holes ++ more) -> 3 <= length c) ->
  edges_apart (zs ++ xs) es -> (forall p q, In (p, q) es \/ In (q, p) es -> ~ capped (zs ++ xs) p q) ->
  holes_inside (zs ++ xs) poly (holes ++ more) -> loose_points_allowed zs poly holes -> loose_points_allowed (zs ++ xs) poly (holes ++ more) ->
  exists b1 b2, builder_of PD1 src1 calls1 = Done b1 /\ builder_of PD2 src2 calls2 = Done b2 /\
  forall dbg1 dbg2, exists t1 t2 ids1 ids2,
    (forall fuel, steps (length zs) <= fuel -> triangulate dbg1 PD1 fuel (build PD1 b1) = Done t1) /\ triangle_list_indices dbg1 PD1 t1 = Done ids1 /\
    (forall fuel, steps (length (zs ++ xs)) <= fuel -> triangulate dbg2 PD2 fuel (build PD2 b2) = Done t2) /\ triangle_list_indices dbg2 PD2 t2 = Done ids2 /\
    carved (zs ++ xs) es (length zs) more ids1 ids2.
Proof.
  intros PD1 PD2 src1 calls1 zs src2 calls2 xs more ue1 ue2 U1 HP1 IN1 U2 HP2 IN2 NC EP EH poly holes es L3 EA CU HI LP1 LP2.
  destruct (contours_range PD1 src1 calls1) as [_ RG]. rewrite HP1, map_length in RG.
  destruct (contours_range PD2 src2 calls2) as [_ RG2]. rewrite HP2, map_length in RG2. rewrite EP, EH in RG2.
  assert (EE : es = flat_map Stokes.cyc (poly :: holes ++ more)) by (unfold es; rewrite <- contours_edges, EP, EH; reflexivity).
  assert (E1 : history_edges PD1 src1 calls1 = flat_map Stokes.cyc (poly :: holes)) by (rewrite <- contours_edges; reflexivity).
  assert (SB : forall x y, In (x, y) (history_edges PD1 src1 calls1) -> In (x, y) es) by (intros x y; rewrite E1, EE; apply edges_grow).
  assert (RE : forall x y, In (x, y) (history_edges PD1 src1 calls1) -> x < length zs /\ y < length zs) by (intros x y; rewrite E1; apply edges_range; exact RG).
  destruct (C28_integer_inputs_cdt_partial PD1 src1 calls1 ue1 zs U1 HP1 IN1) as (b1 & B1 & R1); auto.
  { exact (carved_apart zs xs _ es RE SB EA). }
  { intros p q I' Q. apply (CU p q); [destruct I' as [I'|I']; apply SB in I'; auto|]. assert (p < length zs /\ q < length zs) as [Lp Lq] by (destruct I' as [I'|I']; apply RE in I'; tauto). apply added_capped; assumption. }
  { intros c Ic. apply L3. destruct Ic as [<-|Ic]; [left; reflexivity|right; apply in_or_app; auto]. }
  { exact (carved_holes zs xs _ _ _ RG HI). }
  destruct (C28_integer_inputs_cdt_partial PD2 src2 calls2 ue2 (zs ++ xs) U2 HP2 IN2) as (b2 & B2 & R2); rewrite ?EP, ?EH; auto.
  exists b1, b2. split; [exact B1|]. split; [exact B2|]. intros dbg1 dbg2. destruct (R1 dbg1) as (t1 & ids1 & T1 & X1 & C1). destruct (R2 dbg2) as (t2 & ids2 & T2 & X2 & C2).
  exists t1, t2, ids1, ids2. split; [exact T1|]. split; [exact X1|]. split; [exact T2|]. split; [exact X2|].
  fold es in C2. rewrite EP, EH, EE in C2. rewrite E1 in C1. rewrite EE. destruct (int_gp _ IN2) as [_ GP]. apply carved_lists; assumption.
Qed.
(** the builder call that adds a hole at the end *)
Lemma hole_added PD (src : @source F64 PD) calls h : hole_contours PD src (calls ++ [CHole PD h]) = hole_contours PD src calls ++ [seq (length (history_points PD src calls)) (length (fst h))].
Proof.
  unfold hole_contours, history_points. rewrite app_length. generalize (length (fst src)). induction calls as [|c l IH]; intro k; cbn [calls_contours app flat_map length call_contours].
  - rewrite Nat.add_0_r. reflexivity.
  - rewrite IH, app_length, <- app_assoc, Nat.add_assoc. reflexivity.
Qed.
Lemma hole_history PD (src : @source F64 PD) calls h : history_points PD src (calls ++ [CHole PD h]) = history_points PD src calls ++ fst h.
Proof. unfold history_points. rewrite flat_map_app. cbn [flat_map call_points]. rewrite app_nil_r, app_assoc. reflexivity. Qed.
Theorem C56_added_hole : forall PD (src : @source F64 PD) calls zs h xs ue,
  unit_ok ue -> history_points PD src calls = map (grid ue) zs -> fst h = map (grid ue) xs -> integer_input zs -> integer_input (zs ++ xs) -> no_four_cocircular (length (zs ++ xs)) (zat (zs ++ xs)) ->
  let poly := outer_contour PD src in let holes := hole_contours PD src calls in let hole := seq (length zs) (length xs) in let es := history_edges PD src (calls ++ [CHole PD h]) in
  (forall c, In c (poly :: holes ++ [hole]) -> 3 <= length c) -> edges_apart (zs ++ xs) es -> (forall p q, In (p, q) es \/ In (q, p) es -> ~ capped (zs ++ xs) p q) ->
  holes_inside (zs ++ xs) poly (holes ++ [hole]) -> loose_points_allowed zs poly holes -> loose_points_allowed (zs ++ xs) poly (holes ++ [hole]) ->
  exists b1 b2, builder_of PD src calls = Done b1 /\ builder_of PD src (calls ++ [CHole PD h]) = Done b2 /\
  forall dbg1 dbg2, exists t1 t2 ids1 ids2,
    (forall fuel, steps (length zs) <= fuel -> triangulate dbg1 PD fuel (build PD b1) = Done t1) /\ triangle_list_indices dbg1 PD t1 = Done ids1 /\
    (forall fuel, steps (length (zs ++ xs)) <= fuel -> triangulate dbg2 PD fuel (build PD b2) = Done t2) /\ triangle_list_indices dbg2 PD t2 = Done ids2 /\
    carved (zs ++ xs) es (length zs) [hole] ids1 ids2.
Proof.
  intros PD src calls zs h xs ue U HP HS IN1 IN2 NC poly holes hole es L3 EA CU HI LP1 LP2.
  apply (C56_carved PD PD src calls zs src (calls ++ [CHole PD h]) xs [hole] ue ue); auto.
  - rewrite hole_history, HP, HS, map_app. reflexivity.
  - rewrite hole_added, HP, HS, !map_length. reflexivity.
Qed.

(** ** a triangle with four Steiner points, and the same with a hole drilled *)
Definition outer_src : @source F64 unit := unit_src [(3,1);(61,5);(32,58)]%Z.
Definition inner : list zpt := [(13,9);(49,12);(31,47);(21,28)]%Z.
Definition drill : list zpt := [(36,21);(41,23);(38,26)]%Z.
Definition solid : list zpt := [(3,1);(61,5);(32,58)]%Z ++ inner.
Definition drilled : list zpt := solid ++ drill.
Definition solid_calls : list (@call F64 unit) := [CSteiners unit (unit_src inner)].
Definition drilled_calls : list (@call F64 unit) := solid_calls ++ [CHole unit (unit_src drill)].
Definition drilled_edges : list (nat * nat) := [(0,1);(1,2);(2,0);(7,8);(8,9);(9,7)].
Example drilled_ok : integer_input solid /\ integer_input drilled /\ no_four_cocircular 10 (zat drilled) /\ history_edges unit outer_src drilled_calls = drilled_edges /\
  edges_apart drilled drilled_edges /\ (forall p q, In (p, q) drilled_edges \/ In (q, p) drilled_edges -> ~ capped drilled p q) /\
  holes_inside drilled [0;1;2] [[7;8;9]] /\ loose_points_allowed solid [0;1;2] [] /\ loose_points_allowed drilled [0;1;2] [[7;8;9]].
Proof.
  split; [apply integer_inputb_ok; vm_compute; reflexivity|]. split; [apply integer_inputb_ok; vm_compute; reflexivity|]. split; [apply (cocircularb_ok drilled); vm_compute; reflexivity|].
  split; [reflexivity|]. split; [apply edges_apartb_ok; vm_compute; reflexivity|]. split; [apply uncappedb_ok; vm_compute; reflexivity|]. split; [|split].
  - intros k p h Pk [<-|[]] W. split; [|intros h' [<-|[]] Q; congruence].
    assert (T1 : (0 < orient (zat drilled 0) (zat drilled 1) (zat drilled 2))%Z) by (vm_compute; reflexivity).
    assert (T2 : (0 < orient (zat drilled 7) (zat drilled 8) (zat drilled 9))%Z) by (vm_compute; reflexivity).
    assert (WW : forall x y z, wind (fun v => scaled k (zat drilled v)) [x;y;z] p = wn3 (scaled k (zat drilled x)) (scaled k (zat drilled y)) (scaled k (zat drilled z)) p).
    { intros. unfold wind, Stokes.cyc, wn3. cbn [combine tl app map fst snd]. unfold zsuml. cbn [fold_right length]. cbn. lia. }
    rewrite WW in *. revert W. apply triangle_in_triangle; auto; vm_compute; auto.
  - intros v Lv Nv. pose proof (Nv _ (or_introl eq_refl)) as Q1. cbn in Q1, Lv. left. assert (v = 3 \/ v = 4 \/ v = 5 \/ v = 6) as [->|[->|[->| ->]]] by lia; vm_compute; discriminate.
  - intros v Lv Nv. pose proof (Nv _ (or_introl eq_refl)) as Q1. pose proof (Nv _ (or_intror (or_introl eq_refl))) as Q2. cbn in Q1, Q2, Lv. left. assert (v = 3 \/ v = 4 \/ v = 5 \/ v = 6) as [->|[->|[->| ->]]] by lia; vm_compute; discriminate.
Qed.
Definition indices_of (dbg : bool) (fuel : nat) (src : @source F64 unit) (calls : list (@call F64 unit)) : res (list nat) :=
  let! b := builder_of unit src calls in let! t := triangulate dbg unit fuel (build unit b) in triangle_list_indices dbg unit t.
(** five of the nine triangles stay (one of them shown), four go: one of these meets the hole *)
Example hole_drilled :
  indices_of true (steps 7) outer_src solid_calls = Done [2;0;6; 6;5;2; 5;6;4; 2;5;4; 2;4;1; 4;3;1; 6;3;4; 0;3;6; 3;0;1] /\
  indices_of true (steps 10) outer_src drilled_calls = Done [2;0;6; 6;5;2; 5;6;9; 8;5;9; 8;2;5; 1;2;8; 1;8;4; 4;3;1; 7;3;4; 6;3;7; 0;3;6; 3;0;1; 6;7;9; 8;7;4] /\
  carved drilled drilled_edges 7 [[7;8;9]] [2;0;6; 6;5;2; 5;6;4; 2;5;4; 2;4;1; 4;3;1; 6;3;4; 0;3;6; 3;0;1] [2;0;6; 6;5;2; 5;6;9; 8;5;9; 8;2;5; 1;2;8; 1;8;4; 4;3;1; 7;3;4; 6;3;7; 0;3;6; 3;0;1; 6;7;9; 8;7;4] /\
  meets_hole (zat drilled) [7;8;9] (5, 6, 4) /\ (~ disturbed drilled drilled_edges 7 (4, 3, 1) /\ ~ meets_hole (zat drilled) [7;8;9] (4, 3, 1)).
Proof.
  destruct drilled_ok as (A1 & A2 & A3 & A4 & A5 & A6 & A7 & A8 & A9).
  destruct (C56_added_hole unit outer_src solid_calls solid (unit_src drill) drill 0%Z unit_0 eq_refl eq_refl A1 A2 A3) as (b1 & b2 & B1 & B2 & H); auto.
  { intros c [<-|[<-|[]]]; cbn; lia. }
  assert (R1 : indices_of true 300 outer_src solid_calls = Done [2;0;6; 6;5;2; 5;6;4; 2;5;4; 2;4;1; 4;3;1; 6;3;4; 0;3;6; 3;0;1]) by (vm_compute; reflexivity).
  assert (R2 : indices_of true 300 outer_src drilled_calls = Done [2;0;6; 6;5;2; 5;6;9; 8;5;9; 8;2;5; 1;2;8; 1;8;4; 4;3;1; 7;3;4; 6;3;7; 0;3;6; 3;0;1; 6;7;9; 8;7;4]) by (vm_compute; reflexivity).
  destruct (H true true) as (t1 & t2 & ids1 & ids2 & T1 & X1 & T2 & X2 & CV).
  change (length (solid ++ drill)) with 10 in T2. change (length solid) with 7 in T1, CV.
  assert (M : forall f f' (c : @CDT F64 unit) ids t, f <= f' -> (let! t := triangulate true unit f c in triangle_list_indices true unit t) = Done ids -> triangulate true unit f' c = Done t -> triangle_list_indices true unit t = Done ids).
  { clear. intros f f' c ids t L Q T. destruct (triangulate true unit f c) as [t0| | |] eqn:E; try discriminate. cbn [rbind] in Q. rewrite (triangulate_more unit true f f' c t0 L E) in T. injection T as <-. exact Q. }
  unfold indices_of in *. change (solid_calls ++ [CHole unit (unit_src drill)]) with drilled_calls in B2. rewrite B1 in R1 |- *. rewrite B2 in R2 |- *. cbn [rbind] in *.
  assert (F1 : 300 <= steps 7) by (unfold steps; lia). assert (F2 : 300 <= steps 10) by (unfold steps; lia).
  pose proof (M _ _ _ _ _ F1 R1 (T1 _ (le_n _))) as Y1. pose proof (M _ _ _ _ _ F2 R2 (T2 _ (le_n _))) as Y2.
  rewrite (T1 _ (le_n _)), (T2 _ (le_n _)). cbn [rbind]. split; [exact Y1|]. split; [exact Y2|].
  rewrite X1 in Y1. rewrite X2 in Y2. injection Y1 as ->. injection Y2 as ->. change (history_edges unit outer_src (solid_calls ++ [CHole unit (unit_src drill)])) with drilled_edges in CV.
  split; [exact CV|]. split.
  - exists 1%Z, (38, 23)%Z. split; [lia|]. split; [vm_compute; auto|]. left. vm_compute. discriminate.
  - destruct (CV (4, 3, 1)) as [CV1 _]; [cbn; tauto|]. destruct CV1 as [N1 N2]; [left; cbn; tauto|]. split; [exact N1|]. apply N2. left. reflexivity.
Qed.
Example drilled_good_runs : exists b1 fuel1 t1 cbs1 b2 fuel2 t2 cbs2,
  good_run unit true fuel1 outer_src solid_calls b1 t1 cbs1 /\ good_run unit true fuel2 outer_src drilled_calls b2 t2 cbs2 /\
  hole_contours unit outer_src drilled_calls = hole_contours unit outer_src solid_calls ++ [[7;8;9]] /\
  let zs1 := coords (c_points (build unit b1)) (length (history_points unit outer_src solid_calls)) in
  let zs2 := coords (c_points (build unit b2)) (length (history_points unit outer_src drilled_calls)) in
  zs2 = zs1 ++ map (scaled (2 ^ 1074)) drill /\ no_four_cocircular (length zs2) (zat zs2).
Proof.
  destruct drilled_ok as (A1 & A2 & A3 & A4 & A5 & A6 & A7 & A8 & A9).
  destruct (int_good_run unit true outer_src solid_calls 0%Z solid unit_0) as (b1 & f1 & t1 & c1 & G1 & Q1); auto.
  { change (edges_apart solid [(0,1);(1,2);(2,0)]). apply edges_apartb_ok. vm_compute. reflexivity. }
  { change (forall p q, In (p, q) [(0,1);(1,2);(2,0)] \/ In (q, p) [(0,1);(1,2);(2,0)] -> ~ capped solid p q). apply uncappedb_ok. vm_compute. reflexivity. }
  { intros c [<-|[]]. cbn. lia. }
  { intros k p h _ []. }
  destruct (int_good_run unit true outer_src drilled_calls 0%Z drilled unit_0) as (b2 & f2 & t2 & c2 & G2 & Q2); auto.
  { intros c [<-|[<-|[]]]; cbn; lia. }
  exists b1, f1, t1, c1, b2, f2, t2, c2. split; [exact G1|]. split; [exact G2|]. split; [reflexivity|]. cbv zeta. rewrite Q1, Q2. split.
  - unfold drilled. rewrite map_app. reflexivity.
  - apply cocircular_scaled; [apply (KK_pos 0 unit_0)|exact A3].
Qed.
Print Assumptions C56_f64_finished_runs.
Print Assumptions C56_carved.
Print Assumptions C56_added_hole.
