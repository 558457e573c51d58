(** * PropsTri: C26 and C27 in terms of [triangle_list_indices]

    [triples ids]: the index triples of the flat list the API returns. *)
From Coq Require Import List Arith Bool Lia ZArith Permutation.
From Verif Require Import Base Num Shape ShapeSpec Utils Points Triangles Front Sweeper Cdt F64 Lists BuilderSpec History SortSpec Monad Traverse TraceSpec Grow
  Exact F64Exact FloatLaws Spec PropsBuilder PropsTrace PropsSafe FrontSpec Geom Mesh Setup Good Init Winding CoverRun Stokes Region PropsMesh PropsCover PropsMarks PropsRegion FillTotal Local PropsTotal PropsCup.
Import ListNotations.

Fixpoint triples (ids : list nat) : list (nat * nat * nat) :=
  match ids with a :: b :: c :: ids' => (a, b, c) :: triples ids' | _ => [] end.
(** the point p/k is strictly inside (inside or on) the triangle abc; coordinates z *)
Definition point_in (z : nat -> zpt) (abc : nat * nat * nat) (k : Z) (p : zpt) : Prop :=
  let '(a, b, c) := abc in strictly_inside (scaled k (z a)) (scaled k (z b)) (scaled k (z c)) p.
Definition point_on (z : nat -> zpt) (abc : nat * nat * nat) (k : Z) (p : zpt) : Prop :=
  let '(a, b, c) := abc in inside_or_on (scaled k (z a)) (scaled k (z b)) (scaled k (z c)) p.
Definition sum_triples (z : nat -> zpt) (l : list (nat * nat * nat)) : Z :=
  fold_right (fun abc acc => let '(a, b, c) := abc in orient (z a) (z b) (z c) + acc)%Z 0%Z l.

Lemma indices_triples dbg ts l ids : (forall x, In x l -> exists i, x = Some i /\ i < length ts) -> indices_loop dbg ts l = Done ids ->
  length ids = 3 * length (triples ids) /\ triples ids = map (fun i => (tv ts i I0, tv ts i I1, tv ts i I2)) (valid l) /\ ids = flat_map (fun t => let '(a, b, c) := t in [a; b; c]) (triples ids).
Proof.
  revert ids. induction l as [|x l IH]; intros ids H Q; cbn in Q.
  - injection Q as <-. auto.
  - destruct (H x (or_introl eq_refl)) as (i & -> & Li). destruct (nth_error_ex ts i Li) as [t T].
    assert (E : ts_get_unchecked dbg ts (Some i) = Done t).
    { unfold ts_get_unchecked. case dbg; unfold rassert; simpl; unfold get_unchecked; rewrite T; reflexivity. }
    rewrite E in Q. cbn [rbind] in Q. destruct (indices_loop dbg ts l) as [r| | |]; try discriminate. cbn [rbind] in Q. injection Q as <-.
    destruct (IH r) as (L & M & F); auto. { intros y Hy. apply H. right. auto. }
    cbn [triples length map valid flat_map app]. split; [lia|]. split; [|rewrite F at 1; reflexivity].
    f_equal; [|exact M]. unfold tv, tri_at, V. rewrite (nth_error_nth _ _ _ T). reflexivity.
Qed.

Lemma near_vertex (a b c : zpt) (M : Z) : (0 < orient a b c)%Z -> (1 <= M)%Z -> let k := (M + 2)%Z in let p := (M * fst a + fst b + fst c, M * snd a + snd b + snd c)%Z in
  strictly_inside (scaled k a) (scaled k b) (scaled k c) p.
Proof.
  intros O H k p. destruct a as [x y], b as [x' y'], c as [x'' y'']. unfold strictly_inside, scaled, p, k. cbn [fst snd].
  assert (E1 : (orient ((M + 2) * x, (M + 2) * y) ((M + 2) * x', (M + 2) * y') (M * x + x' + x'', M * y + y' + y'') = (M + 2) * orient (x, y) (x', y') (x'', y''))%Z) by (zpts; ring).
  assert (E2 : (orient ((M + 2) * x', (M + 2) * y') ((M + 2) * x'', (M + 2) * y'') (M * x + x' + x'', M * y + y' + y'') = (M + 2) * M * orient (x, y) (x', y') (x'', y''))%Z) by (zpts; ring).
  assert (E3 : (orient ((M + 2) * x'', (M + 2) * y'') ((M + 2) * x, (M + 2) * y) (M * x + x' + x'', M * y + y' + y'') = (M + 2) * orient (x, y) (x', y') (x'', y''))%Z) by (zpts; ring).
  rewrite E1, E2, E3. revert O. generalize (orient (x, y) (x', y') (x'', y'')). intros o O.
  split; [|split]; repeat apply Z.mul_pos_pos; lia.
Qed.
Lemma cyc_in (c : list nat) (e : nat * nat) : In e (Stokes.cyc c) -> In (fst e) c /\ In (snd e) c.
Proof.
  destruct c as [|x c]; [intros []|]. unfold Stokes.cyc. intro H. destruct e as [u v]. cbn [fst snd]. split.
  - apply (in_combine_l _ _ _ _ H).
  - apply in_combine_r in H. apply in_app_or in H as [H|[<-|[]]]; [right|left]; auto.
Qed.
Lemma zsuml_all0 {X} (f : X -> Z) l : (forall x, In x l -> f x = 0%Z) -> zsuml f l = 0%Z.
Proof. apply zsuml_zero. Qed.
Lemma wind_outside z c p : (forall v, In v c -> (fst p < fst (z v))%Z) \/ (forall v, In v c -> (fst (z v) < fst p)%Z) -> wind z c p = 0%Z.
Proof.
  intro H. unfold wind. apply zsuml_all0. intros e Ie. apply cyc_in in Ie as [I1' I2']. unfold cr.
  destruct H as [H|H]; pose proof (H _ I1'); pose proof (H _ I2').
  - rewrite (proj2 (Z.leb_gt _ _)), (proj2 (Z.leb_gt (fst (z (snd e))) _)) by assumption. reflexivity.
  - rewrite (proj2 (Z.ltb_ge (fst p) (fst (z (snd e))))), (proj2 (Z.ltb_ge (fst p) (fst (z (fst e))))), !andb_false_r by lia. reflexivity.
Qed.

Section S.
Context {A : Arith} {E : Exact A}.
Lemma strictly_in_vertex ps ts i j k p : strictly_inside (scaled k (zc ps (tv ts i j))) (scaled k (zc ps (tv ts i (nxt j)))) (scaled k (zc ps (tv ts i (prv j)))) p -> strictly_in ps ts i k p.
Proof. intros (H1 & H2 & H3) j'. destruct j, j'; assumption. Qed.

(** no triangle that lies in the polygon has an artificial corner *)
Lemma no_frame_vertex ps ts i j poly : proper ps -> (forall v, In v poly -> v < ps_head ps) -> tv ts i j < npts ps ->
  (0 < orient (zc ps (tv ts i I0)) (zc ps (tv ts i I1)) (zc ps (tv ts i I2)))%Z ->
  (forall k p, (0 < k)%Z -> strictly_in ps ts i k p -> winds ps poly k p <> 0%Z) -> tv ts i j < ps_head ps.
Proof.
  intros PP RG L O W. destruct (Nat.lt_ge_cases (tv ts i j) (ps_head ps)) as [|G]; auto. exfalso.
  assert (C : (0 < orient (zc ps (tv ts i j)) (zc ps (tv ts i (nxt j))) (zc ps (tv ts i (prv j))))%Z).
  { destruct j; cbn [nxt prv]; [exact O|rewrite orient_rot; exact O|rewrite orient_rot'; exact O]. }
  set (a := zc ps (tv ts i j)) in *. set (b := zc ps (tv ts i (nxt j))) in *. set (c := zc ps (tv ts i (prv j))) in *.
  set (M := (Z.abs (fst b) + Z.abs (fst c) + 2 * Z.abs (fst a) + 3)%Z).
  apply (W (M + 2)%Z (M * fst a + fst b + fst c, M * snd a + snd b + snd c)%Z); [unfold M; lia| |].
  - apply (strictly_in_vertex ps ts i j). apply near_vertex; auto. unfold M. lia.
  - pose proof (pr_head ps PP) as PH. pose proof (pr_tail ps PP) as PT. apply wind_outside. cbn [fst].
    assert (T : tv ts i j = ps_head ps \/ tv ts i j = ps_tail ps) by lia.
    assert (FR : (forall v, In v poly -> (fst a + 1 <= fst (zc ps v))%Z) \/ (forall v, In v poly -> (fst (zc ps v) + 1 <= fst a)%Z)).
    { destruct T as [T|T]; unfold a; rewrite T; [left|right]; intros v Iv; destruct (pr_frame ps PP v (RG v Iv)) as ((? & ?) & _); lia. }
    unfold scaled. cbn [fst]. destruct FR as [FR|FR]; [left|right]; intros v Iv; specialize (FR v Iv).
    + apply Z.lt_le_trans with ((M + 2) * (fst a + 1))%Z; [unfold M; lia|]. apply Z.mul_le_mono_nonneg_l; [unfold M; lia|exact FR].
    + apply Z.le_lt_trans with ((M + 2) * (fst a - 1))%Z; [apply Z.mul_le_mono_nonneg_l; unfold M; lia|unfold M; lia].
Qed.

(** C26 and C27 for the list the API returns.  Its triples are counter-clockwise triangles of input points, no
    point is strictly inside two of them, they lie in the polygon and outside the holes, they cover it, and the areas match. *)
Definition fills_region (n : nat) (z : nat -> zpt) (poly : list nat) (holes : list (list nat)) (ids : list nat) : Prop :=
  let tris := triples ids in
  ids = flat_map (fun t => let '(a, b, c) := t in [a; b; c]) tris /\
  (forall a b c, In (a, b, c) tris -> (a < n /\ b < n /\ c < n)%nat /\ (0 < orient (z a) (z b) (z c))%Z) /\
  (forall i j t u k p, (0 < k)%Z -> nth_error tris i = Some t -> nth_error tris j = Some u -> point_in z t k p -> point_in z u k p -> i = j) /\
  (forall t k p, In t tris -> (0 < k)%Z -> point_in z t k p ->
     wind (fun v => scaled k (z v)) poly p <> 0%Z /\ forall h, In h holes -> wind (fun v => scaled k (z v)) h p = 0%Z) /\
  (forall k p, (0 < k)%Z -> wind (fun v => scaled k (z v)) poly p <> 0%Z -> (forall h, In h holes -> wind (fun v => scaled k (z v)) h p = 0%Z) ->
     exists t, In t tris /\ point_on z t k p) /\
  (sum_triples z tris = Z.abs (area2 z poly) - fold_right (fun h acc => Z.abs (area2 z h) + acc) 0 holes)%Z.

Lemma sum_triples_valid ps ts l : sum_triples (zc ps) (map (fun i => (tv ts i I0, tv ts i I1, tv ts i I2)) (valid l)) = sum_area2 ps ts l.
Proof.
  unfold sum_triples, sum_area2. induction l as [|[i|] l IH]; [reflexivity| |exact IH].
  change (valid (Some i :: l)) with (i :: valid l). cbn [map fold_right]. rewrite IH. reflexivity.
Qed.

Theorem C26_triangle_list : forall PD dbg fuel src calls (b : Builder PD) t cbs, eq_not_lt -> History.eq_sym ->
  builder_of PD src calls = Done b -> let ps := c_points (build PD b) in
  proper ps -> plane_input ps (history_edges PD src calls) -> observed dbg fuel (build PD b) = (Done t, cbs) -> fills_ccw ps cbs ->
  let poly := outer_contour PD src in let holes := hole_contours PD src calls in
  (forall c, In c (poly :: holes) -> (3 <= length c)%nat) -> holes_nested ps poly holes -> steiner_allowed PD ps src calls ->
  exists ids, triangle_list_indices dbg PD t = Done ids /\ fills_region (length (history_points PD src calls)) (zc ps) poly holes ids.
Proof.
  intros PD dbg fuel src calls b t cbs L Sy B ps PP PI O F poly holes L3 HN ST.
  destruct (C26_result_fills_polygon PD dbg fuel src calls b t cbs L Sy B PP PI O F L3 HN ST) as (H1 & H2 & H3).
  pose proof (C18_result_ccw PD dbg fuel src calls b t cbs B PP (scan_exact_sound _ (pi_scan _ _ PI)) O F) as CC.
  destruct (C10_result_distinct PD dbg fuel src calls b t cbs B O) as [RD RR].
  destruct (C09_iterator_and_indices PD dbg fuel src calls b t cbs B O) as (ids & ID & _).
  destruct (indices_triples dbg (tr_triangles t) (tr_result t) ids RR ID) as (_ & TR & FL).
  exists ids. split; [exact ID|]. unfold fills_region. cbv zeta. split; [exact FL|]. rewrite TR. clear FL.
  set (ts := tr_triangles t) in *. fold ps in CC.
  assert (HD : ps_head ps = length (history_points PD src calls)) by (pose proof (History.builder_of_points _ _ _ _ B) as (B1 & _ & _); rewrite <- B1; reflexivity).
  assert (CB : exists before cb, cbs = before ++ [cb] /\ cb_tris cb = ts).
  { destruct (result_cb _ _ _ _ _ _ _ _ B O) as (before & cb & -> & _ & Q). exists before, cb. auto. }
  destruct CB as (before & cb & -> & Q).
  assert (VR : forall i j, (i < length ts)%nat -> (tv ts i j < npts ps)%nat).
  { intros i j Li. pose proof (C13_unchecked_in_range_partial PD dbg fuel src calls b _ _ B O) as [_ RG]. apply Forall_app in RG as [_ RG].
    inversion RG as [|? ? (R1 & _) _]; subst. rewrite Q in R1. pose proof (pr_head ps PP) as PH. rewrite HD in PH.
    destruct (nth_error_ex ts i Li) as [tr T]. destruct (R1 tr j (nth_error_In _ _ T)) as [R _]. unfold tv, V, tri_at. rewrite (nth_error_nth _ _ _ T). fold ps in PH. lia. }
  assert (VI : forall i, In i (valid (tr_result t)) -> (i < length ts)%nat).
  { intros i Ii. apply valid_in in Ii. destruct (RR _ Ii) as (i' & E1 & Li). injection E1 as <-. exact Li. }
  split.
  { intros x y z I'. apply in_map_iff in I' as (i & E1 & Ii). injection E1 as <- <- <-. pose proof (VI i Ii) as Li. apply valid_in in Ii.
    destruct (CC _ Ii) as (i' & E1 & O'). injection E1 as <-. split; [|exact O'].
    destruct (H1 _ Ii) as (i' & E1 & W). injection E1 as <-.
    destruct (contours_range PD src calls) as [_ RG].
    assert (NF : forall j, (tv ts i j < ps_head ps)%nat).
    { intro j. apply (no_frame_vertex ps ts i j poly PP); auto.
      - intros v Iv. rewrite HD. apply (RG poly v (or_introl eq_refl) Iv).
      - intros k p K H. apply (W k p K H). }
    rewrite <- HD. split; [apply (NF I0)|split; [apply (NF I1)|apply (NF I2)]]. }
  split.
  { intros i j t' u' k p K Hi Hj Pi Pj. rewrite nth_error_map in Hi, Hj.
    destruct (nth_error (valid (tr_result t)) i) as [x|] eqn:Ex; [|discriminate]. destruct (nth_error (valid (tr_result t)) j) as [y|] eqn:Ey; [|discriminate].
    cbn in Hi, Hj. injection Hi as <-. injection Hj as <-.
    assert (x = y) as <-.
    { destruct (C25_covered_once PD dbg fuel src calls b (Done t) before cb [] B PP (scan_exact_sound _ (pi_scan _ _ PI)) O F k p K) as (UQ & _ & _). rewrite Q in UQ.
      apply UQ; [apply VI; eapply nth_error_In; eauto|apply VI; eapply nth_error_In; eauto| |]; apply strictly_in_inside; assumption. }
    apply (proj1 (NoDup_nth_error (valid (tr_result t))) (valid_nodup _ RD)); [|congruence]. eapply nth_error_lt; eauto. }
  split.
  { intros t' k p I' K H. apply in_map_iff in I' as (i & <- & Ii). apply valid_in in Ii. destruct (H1 _ Ii) as (i' & E1 & W). injection E1 as <-.
    apply (W k p K). apply strictly_in_inside. exact H. }
  split.
  { intros k p K W1 W2. destruct (H2 k p K W1 W2) as (i & Ii & On). eexists. split; [apply in_map, valid_in; exact Ii|]. apply in_or_on_inon in On. exact On. }
  rewrite sum_triples_valid. exact H3.
Qed.
End S.

(** the same for f64 and for inputs without a cap: the call returns, and what it returns is the triangulation *)
Theorem C28_cup_inputs_triangle_list_partial : forall PD (src : @source F64 PD) calls (b : Builder PD),
  builder_of PD src calls = Done b -> let ps := c_points (build PD b) in
  proper ps -> plane_input ps (history_edges PD src calls) -> eps_ok ps -> exact_fills ps ->
  (forall p q, input_edge ps p q -> ~ convex_below ps p q) ->
  let poly := outer_contour PD src in let holes := hole_contours PD src calls in
  (forall c, In c (poly :: holes) -> (3 <= length c)%nat) -> holes_nested ps poly holes -> steiner_allowed PD ps src calls ->
  forall dbg, exists t ids, (forall fuel, steps (length (history_points PD src calls)) <= fuel -> triangulate dbg PD fuel (build PD b) = Done t) /\
  triangle_list_indices dbg PD t = Done ids /\ fills_region (length (history_points PD src calls)) (zc ps) poly holes ids.
Proof.
  intros PD src calls b B ps PP PI EO EF CUP poly holes L3 HN ST dbg.
  assert (NE : history_points PD src calls <> []).
  { intro Q. specialize (L3 poly (or_introl eq_refl)). unfold poly, outer_contour in L3. rewrite seq_length in L3.
    unfold history_points in Q. apply app_eq_nil in Q as [Q _]. rewrite Q in L3. cbn in L3. lia. }
  pose proof (plane_planar PD src calls b F64_eq_not_lt F64_eq_sym B PI) as PN.
  destruct (C28_cup_inputs_complete_partial PD dbg src calls b B NE PP PN EO EF CUP) as (t & cbs & H).
  destruct (H _ (le_n _)) as [O F].
  destruct (C26_triangle_list PD dbg _ src calls b t cbs F64_eq_not_lt F64_eq_sym B PP PI O F L3 HN ST) as (ids & H1 & H2).
  exists t, ids. split; [|auto]. intros fuel Lf. destruct (H fuel Lf) as [O' _].
  unfold observed, triangulate_with_observer in O'. unfold triangulate, triangulate_with_observer. destruct (run dbg fuel (c_points (build PD b))) as [r ctx]. injection O' as O' _. exact O'.
Qed.
Print Assumptions C26_triangle_list.
Print Assumptions C28_cup_inputs_triangle_list_partial.
