(** * PropsCount: C47, how many triangles are returned

    For a simple polygon with n corners, n - 2.  For a polygon with holes and Steiner points: every point of the
    outer polygon contributes one triangle and every point of a hole one, every Steiner point used two, every hole
    two more, and two are subtracted. *)
From Coq Require Import List Arith Bool Lia ZArith Permutation.
From Coq.Floats Require Import SpecFloat.
From Verif Require Import Base Num Shape ShapeSpec Utils Points Triangles Front Sweeper Cdt F64 Lists BuilderSpec History SortSpec Monad Traverse TraceSpec Grow
  Exact F64Exact FloatLaws Spec PropsBuilder PropsTrace PropsSafe FrontSpec Geom Mesh Setup Good Init Winding CoverRun Stokes Region PropsMesh PropsCover PropsMarks PropsRegion FillTotal Local PropsTotal PropsCup PropsTri F64Real IntSpec IntF64 IntRun IntHyp PropsInt PropsCdt PropsCdtInt PropsIntEx PropsCdtEx PropsOutcome CountAll.
Import ListNotations.
Local Open Scope nat_scope.

(** [inner]: the points on no contour that are corners of a returned triangle *)
Definition triangle_count (n : nat) (poly : list nat) (holes : list (list nat)) (ids : list nat) : Prop :=
  length ids = 3 * length (triples ids) /\
  forall inner, NoDup inner ->
    (forall v, In v inner <-> v < n /\ (forall c, In c (poly :: holes) -> ~ In v c) /\ exists t, In t (triples ids) /\ corner v t) ->
    length (triples ids) + 2 = length poly + fold_right (fun h acc => length h + 2 + acc) 0 holes + 2 * length inner.
(** [corners]: the number of points on the contours *)
Definition corners (poly : list nat) (holes : list (list nat)) : nat := length poly + fold_right (fun h acc => length h + acc) 0 holes.

Lemma flat3 (l : list (nat * nat * nat)) : length (flat_map (fun t => let '(a, b, c) := t in [a; b; c]) l) = 3 * length l.
Proof. induction l as [|[[a b] c] l IH]; [reflexivity|]. cbn [flat_map app length]. rewrite IH. lia. Qed.
Lemma holes_z holes : zsuml (fun h : list nat => (Z.of_nat (length h) + 2)%Z) holes = Z.of_nat (fold_right (fun h acc => length h + 2 + acc) 0 holes).
Proof. induction holes as [|h l IH]; [reflexivity|]. cbn [zsuml fold_right]. fold (zsuml (fun h : list nat => (Z.of_nat (length h) + 2)%Z) l). rewrite IH. lia. Qed.

(** it follows from the other properties of the returned list *)
Lemma count_of_region n z es poly holes ids :
  (forall i j, i < n -> j < n -> i <> j -> z i <> z j) ->
  (forall i j k, i < n -> j < n -> k < n -> i <> j -> j <> k -> i <> k -> orient (z i) (z j) (z k) <> 0%Z) ->
  es = flat_map Stokes.cyc (poly :: holes) -> (forall c, In c (poly :: holes) -> 3 <= length c) -> NoDup (concat (poly :: holes)) ->
  (forall c v, In c (poly :: holes) -> In v c -> v < n) ->
  (forall e e', In e es -> In e' es -> ~ segments_cross (z (fst e)) (z (snd e)) (z (fst e')) (z (snd e'))) ->
  fills_region n z poly holes ids -> conforming es ids -> triangle_count n poly holes ids.
Proof.
  intros GD GO EE L3 ND RG AP (F1 & F2 & F3 & F4 & _ & _) [C1 C2]. split; [rewrite F1 at 1; apply flat3|]. intros inner NI HI.
  pose proof (count_triangles n z (triples ids) GD GO F2 F3 es (poly :: holes) C1 C2 L3 ND RG) as H.
  assert (ES : forall x y, In (x, y) es <-> exists c, In c (poly :: holes) /\ In (x, y) (Stokes.cyc c)) by (intros x y; rewrite EE; apply in_flat_map).
  assert (P : forall t k p, In t (triples ids) -> (0 < k)%Z -> point_in z t k p -> wind (fun v => scaled k (z v)) poly p <> 0%Z /\ (forall h, In h holes -> wind (fun v => scaled k (z v)) h p = 0%Z)).
  { intros t k p It K Q. exact (F4 t k p It K Q). }
  specialize (H ES AP poly holes eq_refl P inner NI HI). rewrite holes_z in H. lia.
Qed.

(** when every point that is on no contour is used *)
Lemma count_all_used n poly holes ids : NoDup (concat (poly :: holes)) -> (forall c v, In c (poly :: holes) -> In v c -> v < n) ->
  (forall v, v < n -> (forall c, In c (poly :: holes) -> ~ In v c) -> exists t, In t (triples ids) /\ corner v t) ->
  triangle_count n poly holes ids -> length (triples ids) + 2 + corners poly holes = 2 * n + 2 * length holes.
Proof.
  intros ND RG U [_ H].
  set (onc := fun v => if in_dec Nat.eq_dec v (concat (poly :: holes)) then true else false).
  set (inner := filter (fun v => negb (onc v)) (seq 0 n)).
  assert (II : forall v, In v inner <-> v < n /\ forall c, In c (poly :: holes) -> ~ In v c).
  { intro v. unfold inner. rewrite filter_In, in_seq. unfold onc. destruct (in_dec _ v (concat (poly :: holes))) as [J|J]; cbn [negb]; split.
    - intros [_ X]; discriminate.
    - intros [_ X]. exfalso. apply in_concat in J as (c & Ic & Iv). exact (X c Ic Iv).
    - intros [X _]. split; [lia|]. intros c Ic Iv. apply J. apply in_concat. eauto.
    - intros [X _]. split; auto. lia. }
  specialize (H inner). rewrite H.
  - assert (P : Permutation (seq 0 n) (concat (poly :: holes) ++ inner)).
    { apply NoDup_Permutation; [apply seq_NoDup| |].
      - apply PropsRegion.nodup_app; [exact ND|apply NoDup_filter, seq_NoDup|]. intros x Hx Hy. apply II in Hy as [_ Hy]. apply in_concat in Hx as (c & Ic & Ix). exact (Hy c Ic Ix).
      - intro v. rewrite in_app_iff, II, in_seq. split.
        + intro L. destruct (in_dec Nat.eq_dec v (concat (poly :: holes))) as [J|J]; [left; exact J|right]. split; [lia|]. intros c Ic Iv. apply J. apply in_concat. eauto.
        + intros [J|[J _]]; [|lia]. apply in_concat in J as (c & Ic & Iv). pose proof (RG c v Ic Iv). lia. }
    apply Permutation_length in P. rewrite app_length, seq_length in P. cbn [concat] in P. rewrite app_length in P.
    assert (E : length (concat holes) = fold_right (fun h acc => length h + acc) 0 holes) by (clear; induction holes as [|h l IH]; [reflexivity|]; cbn [concat fold_right]; rewrite app_length, IH; reflexivity).
    assert (E2 : fold_right (fun h acc => length h + 2 + acc) 0 holes = fold_right (fun h acc => length h + acc) 0 holes + 2 * length holes) by (clear; induction holes as [|h l IH]; [reflexivity|]; cbn [fold_right length]; lia).
    unfold corners. lia.
  - apply NoDup_filter, seq_NoDup.
  - intro v. rewrite II. split; [intros [A B]; split; auto; split; auto|tauto].
Qed.

Section Run.
Context {A : Arith} {E : Exact A}.
(** ** C47 for any run that returns *)
Theorem C47_triangle_count : forall PD dbg fuel src calls (b : Builder PD) t cbs ids, eq_not_lt -> History.eq_sym ->
  builder_of PD src calls = Done b -> let ps := c_points (build PD b) in
  proper ps -> plane_input ps (history_edges PD src calls) -> observed dbg fuel (build PD b) = (Done t, cbs) -> fills_ccw ps cbs ->
  let poly := outer_contour PD src in let holes := hole_contours PD src calls in
  (forall c, In c (poly :: holes) -> (3 <= length c)%nat) -> holes_nested ps poly holes -> steiner_allowed PD ps src calls ->
  triangle_list_indices dbg PD t = Done ids -> triangle_count (length (history_points PD src calls)) poly holes ids.
Proof.
  intros PD dbg fuel src calls b t cbs ids L Sy B ps PP PI O F poly holes L3 HN ST ID.
  destruct (C26_triangle_list PD dbg fuel src calls b t cbs L Sy B PP PI O F L3 HN ST) as (ids' & H1 & H2). assert (ids' = ids) by congruence. subst ids'.
  pose proof (C44_conforming PD dbg fuel src calls b t cbs ids L Sy B PP PI O F L3 HN ST ID) as H3.
  pose proof (pr_head ps PP) as PH. assert (HD : ps_head ps = length (history_points PD src calls)) by (pose proof (History.builder_of_points _ _ _ _ B) as (B1 & _ & _); rewrite <- B1; reflexivity).
  destruct (contours_range PD src calls) as [ND RG].
  apply (count_of_region _ (zc ps) (history_edges PD src calls)); auto.
  - intros i j Li Lj N Q. apply N. apply (pr_inj ps PP); [lia|lia|exact Q].
  - intros i j k Li Lj Lk. apply (pi_col _ _ PI); lia.
  - symmetry. apply contours_edges.
  - exact (pi_cross _ _ PI).
Qed.
End Run.
Print Assumptions C47_triangle_count.

(** ** inputs with integer coordinates *)
Lemma int_gp zs : integer_input zs ->
  (forall i j, i < length zs -> j < length zs -> i <> j -> zat zs i <> zat zs j) /\
  (forall i j k, i < length zs -> j < length zs -> k < length zs -> i <> j -> j <> k -> i <> k -> orient (zat zs i) (zat zs j) (zat zs k) <> 0%Z).
Proof.
  intros (L & _ & NC).
  assert (T : forall i, i < length zs -> nth i (tenths zs) (0, 0)%Z = scaled 10 (zat zs i)).
  { intros i Li. unfold tenths. rewrite app_nth1 by (rewrite map_length; exact Li). exact (map_nth (fun z : zpt => (10 * fst z, 10 * snd z)%Z) zs (0, 0)%Z i). }
  assert (LT : length zs <= length (tenths zs)) by (unfold tenths; rewrite app_length, map_length; apply Nat.le_add_r).
  assert (O : forall i j k, i < j -> j < k -> k < length zs -> orient (zat zs i) (zat zs j) (zat zs k) <> 0%Z).
  { intros i j k L1 L2 L3 Q. apply (NC i j k L1 L2 ltac:(lia)). rewrite !T by lia. rewrite orient_scaled, Q. reflexivity. }
  assert (G : forall i j k, i < length zs -> j < length zs -> k < length zs -> i <> j -> j <> k -> i <> k -> orient (zat zs i) (zat zs j) (zat zs k) <> 0%Z).
  { intros i j k Li Lj Lk N1 N2 N3.
    destruct (Nat.lt_ge_cases i j), (Nat.lt_ge_cases j k), (Nat.lt_ge_cases i k); try lia.
    - apply O; lia.
    - intro Q. apply (O i k j); try lia. rewrite orient_swap', Q. reflexivity.
    - intro Q. apply (O k i j); try lia. rewrite orient_rot', Q. reflexivity.
    - intro Q. apply (O j i k); try lia. rewrite orient_swap, Q. reflexivity.
    - intro Q. apply (O j k i); try lia. rewrite orient_rot, Q. reflexivity.
    - intro Q. apply (O k j i); try lia. rewrite orient_rot, orient_swap', Q. reflexivity. }
  split; [|exact G]. intros i j Li Lj N Q.
  assert (exists k, k < length zs /\ i <> k /\ j <> k) as (k & Lk & Nk & Nk').
  { destruct (Nat.eq_dec i 0), (Nat.eq_dec j 0), (Nat.eq_dec i 1), (Nat.eq_dec j 1); try (exists 0; lia); try (exists 1; lia); exists 2; lia. }
  apply (G i j k Li Lj Lk N Nk' Nk). rewrite Q. zpts. ring.
Qed.
Lemma cdt_count PD (src : @source F64 PD) calls ue zs ids : history_points PD src calls = map (grid ue) zs -> integer_input zs ->
  let es := history_edges PD src calls in let poly := outer_contour PD src in let holes := hole_contours PD src calls in
  edges_apart zs es -> (forall c, In c (poly :: holes) -> 3 <= length c) ->
  proper_cdt (length zs) (zat zs) es poly holes ids -> triangle_count (length zs) poly holes ids.
Proof.
  intros HP IN es poly holes EA L3 (H1 & _ & H3 & _). destruct (int_gp zs IN) as [GD GO]. destruct (contours_range PD src calls) as [ND RG].
  rewrite HP, map_length in RG.
  apply (count_of_region _ (zat zs) es); auto. symmetry. apply contours_edges.
Qed.

(** every Steiner point inside the polygon and outside the holes *)
Definition loose_points_in_region (zs : list zpt) (poly : list nat) (holes : list (list nat)) : Prop := forall v, v < length zs ->
  (forall c, In c (poly :: holes) -> ~ In v c) -> wind (zat zs) poly (zat zs v) <> 0%Z /\ forall h, In h holes -> wind (zat zs) h (zat zs v) = 0%Z.

(** the run returns, and the number of triangles is 2n - 2 - k + 2h: n points of which k on contours, h holes *)
Theorem C47_integer_inputs : forall PD (src : @source F64 PD) calls ue zs,
  unit_ok ue -> history_points PD src calls = map (grid ue) zs -> integer_input zs ->
  let es := history_edges PD src calls in
  edges_apart zs es -> (forall p q, In (p, q) es \/ In (q, p) es -> ~ capped zs p q) ->
  let poly := outer_contour PD src in let holes := hole_contours PD src calls in
  (forall c, In c (poly :: holes) -> 3 <= length c) -> holes_inside zs poly holes -> loose_points_in_region zs poly holes ->
  exists b, builder_of PD src calls = Done b /\
  forall dbg, exists t ids, (forall fuel, steps (length zs) <= fuel -> triangulate dbg PD fuel (build PD b) = Done t) /\
    triangle_list_indices dbg PD t = Done ids /\ proper_cdt (length zs) (zat zs) es poly holes ids /\
    length ids = 3 * length (triples ids) /\ length (triples ids) + 2 + corners poly holes = 2 * length zs + 2 * length holes.
Proof.
  intros PD src calls ue zs UB HP IN es EA CUP poly holes L3 HN ST.
  destruct (C28_integer_inputs_cdt_partial PD src calls ue zs UB HP IN EA CUP L3 HN) as (b & B & H). { intros v Lv Nv. left. apply (ST v Lv Nv). }
  exists b. split; [exact B|]. intro dbg. destruct (H dbg) as (t & ids & H1 & H2 & H3). exists t, ids. split; [exact H1|]. split; [exact H2|]. split; [exact H3|].
  pose proof (cdt_count PD src calls ue zs ids HP IN EA L3 H3) as TC. split; [apply TC|].
  destruct (contours_range PD src calls) as [ND RG]. rewrite HP, map_length in RG.
  apply (count_all_used (length zs) poly holes ids ND RG); auto. intros v Lv Nv. destruct H3 as (_ & _ & _ & H4). apply (H4 v Lv). right. exact (ST v Lv Nv).
Qed.
Print Assumptions C47_integer_inputs.

(** a polygon without holes and Steiner points: n - 2 triangles *)
Lemma ring_count zs ids : integer_input zs -> edges_apart zs (ring (length zs)) -> proper_cdt (length zs) (zat zs) (ring (length zs)) (seq 0 (length zs)) [] ids ->
  length ids = 3 * (length zs - 2).
Proof.
  intros IN EA H. assert (L3 : 3 <= length zs) by apply IN.
  assert (TC : triangle_count (length zs) (seq 0 (length zs)) [] ids).
  { destruct H as (H1 & _ & H3 & _). destruct (int_gp zs IN) as [GD GO]. apply (count_of_region _ (zat zs) (ring (length zs))); auto.
    - cbn [flat_map]. rewrite app_nil_r, cyc_seq. reflexivity.
    - intros c [<-|[]]. rewrite seq_length. exact L3.
    - cbn [concat]. rewrite app_nil_r. apply seq_NoDup.
    - intros c v [<-|[]] Iv. apply in_seq in Iv. lia. }
  destruct TC as [T1 T2]. specialize (T2 [] (NoDup_nil nat)). rewrite T1. cbn [fold_right length] in T2. rewrite seq_length in T2. rewrite <- (Nat.add_0_r (length zs)) at 1.
  enough (length (triples ids) + 2 = length zs + 0 + 2 * 0) by lia. apply T2. intro v. split; [intros []|]. intros (Lv & Nv & _). apply (Nv _ (or_introl eq_refl)). apply in_seq. lia.
Qed.
Theorem C47_integer_polygon : forall zs, integer_input zs -> edges_apart zs (ring (length zs)) ->
  forall dbg fuel, steps (length zs) <= fuel ->
  (exists ids, indices64 dbg fuel zs [] [] = Done ids /\ length ids = 3 * (length zs - 2)) \/
  (exists before cb after p q c, cdt64 zs [] [] = Done c /\ snd (observed dbg fuel c) = before ++ cb :: after /\ announces_inverted (c_points c) cb /\
     (In (p, q) (ring (length zs)) \/ In (q, p) (ring (length zs))) /\ capped zs p q).
Proof.
  intros zs IN EA dbg. intros fuel LE.
  destruct (C28_integer_polygon_correct_or_inverts zs IN EA dbg fuel LE) as [(ids & H1 & H2)|(before & cb & after & p & q & c & K1 & K2 & K3 & K4 & K5 & K6 & _)].
  - left. exists ids. split; [exact H1|]. apply ring_count; assumption.
  - right. exists before, cb, after, p, q, c. auto 10.
Qed.
Theorem C47_convex_polygon : forall zs, integer_input zs -> convex_polygon zs ->
  forall dbg, exists ids, (forall fuel, steps (length zs) <= fuel -> indices64 dbg fuel zs [] [] = Done ids) /\ length ids = 3 * (length zs - 2).
Proof.
  intros zs IN C dbg. destruct (convex_no_cap zs IN C) as [EA CUP]. destruct (C28_integer_polygon_cdt_partial zs IN EA CUP dbg) as (ids & H1 & H2).
  exists ids. split; [exact H1|]. apply ring_count; assumption.
Qed.
Print Assumptions C47_integer_polygon.
Print Assumptions C47_convex_polygon.

(** the star of PropsIntEx.v has eight corners and gets six triangles; the triangle with a triangular hole and a Steiner point gets eight *)
Example star_count : exists ids, (forall fuel, steps 8 <= fuel -> indices64 true fuel star [] [] = Done ids) /\ length ids = 18.
Proof.
  destruct star_ok as (H1 & H2 & H3 & _). destruct (C28_integer_polygon_cdt_partial star H1 H2 H3 true) as (ids & A1 & A2). exists ids. split; [exact A1|].
  exact (ring_count star ids H1 H2 A2).
Qed.
Example annulus_count : exists b, builder_of unit hole_src hole_calls = Done b /\ forall dbg, exists t ids,
  (forall fuel, steps 7 <= fuel -> triangulate dbg unit fuel (build unit b) = Done t) /\ triangle_list_indices dbg unit t = Done ids /\ length ids = 24.
Proof.
  destruct annulus_ok as (H1 & H2 & H3 & H4 & H5 & H6 & H7).
  destruct (C47_integer_inputs unit hole_src hole_calls 0%Z annulus unit_0 H1 H2 H3 H4 H5 H6) as (b & B & H).
  - intros v Lv Nv. assert (v = 6) as ->.
    { change (v < 7) in Lv. assert (N1 : ~ In v [0;1;2]) by (apply Nv; left; reflexivity). assert (N2 : ~ In v [3;4;5]) by (apply Nv; right; left; reflexivity). simpl in N1, N2. lia. }
    split; [vm_compute; discriminate|]. intros h Ih. destruct Ih as [<-|[]]. vm_compute. reflexivity.
  - exists b. split; [exact B|]. intro dbg. destruct (H dbg) as (t & ids & A1 & A2 & _ & A3 & A4). exists t, ids. split; [exact A1|]. split; [exact A2|].
    change (length (triples ids) + 2 + 6 = 16) in A4. lia.
Qed.
