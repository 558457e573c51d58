(** * PropsRegion: C26 - the triangles returned fill the polygon minus its holes

    Points of the plane are written p/k, k > 0, as in PropsCover.  [wind] (Region.v) is the winding
    number of a closed polygon around a point: the sum over the sides of the signed crossings ([cr],
    Winding.v) with the vertical ray down from the point, a side counting its left end but not its right
    end; [area2] is twice the signed area (shoelace formula). *)
From Coq Require Import List Arith Bool Lia ZArith Permutation.
From Verif Require Import Base Num Shape ShapeSpec Utils Points Triangles Front Sweeper Cdt F64 Lists Monad BuilderSpec Exact F64Exact FloatLaws Spec PropsBuilder PropsTrace Flood PropsSafe
  FrontSpec Geom Mesh Rotate Setup Legal Boundary Chain FrontInv Good Init Winding Cover CoverRun Disc Stokes Region Inside FanAll Screen Cone MeshStart PropsMesh PropsCover PropsMarks.
From Verif Require History.
Import History(call, CHole, CHoles, CSteiner, CSteiners, builder_of, call_points, history_points, holes_edges, call_edges, calls_edges, history_edges).
Import ListNotations.
Local Open Scope Z_scope.

Lemma nth_ext' {X} : forall (a b : list X), (forall i, nth_error a i = nth_error b i) -> a = b.
Proof.
  induction a as [|x a IH]; intros [|y b] H; auto; [specialize (H 0%nat); discriminate|specialize (H 0%nat); discriminate|].
  pose proof (H 0%nat) as H0. injection H0 as ->. f_equal. apply IH. intro i. apply (H (S i)).
Qed.
Lemma nodup_app {X} (a b : list X) : NoDup a -> NoDup b -> (forall x, In x a -> ~ In x b) -> NoDup (a ++ b).
Proof.
  induction a as [|x a IH]; simpl; intros NA NB H; auto. inversion NA as [|? ? N1 N2]; subst. constructor.
  - intro I'. apply in_app_or in I' as [I'|I']; [contradiction|]. apply (H x); auto.
  - apply IH; auto.
Qed.

(** ** the closed polygons of the input, as lists of point indices *)
Section Contours.
Context {A : Arith}.
Variable PD : Type.
Fixpoint holes_contours (k : nat) (l : list (source PD)) : list (list nat) :=
  match l with [] => [] | s :: l' => seq k (length (fst s)) :: holes_contours (k + length (fst s)) l' end.
Definition call_contours (k : nat) (c : call PD) : list (list nat) :=
  match c with CHole _ s => [seq k (length (fst s))] | CHoles _ l => holes_contours k l | _ => [] end.
Fixpoint calls_contours (k : nat) (l : list (call PD)) : list (list nat) :=
  match l with [] => [] | c :: l' => call_contours k c ++ calls_contours (k + length (call_points PD c)) l' end.
(** the outer polygon; the holes, in call order *)
Definition outer_contour (src : source PD) : list nat := seq 0 (length (fst src)).
Definition hole_contours (src : source PD) (calls : list (call PD)) : list (list nat) := calls_contours (length (fst src)) calls.

Lemma cyc_seq k m : Stokes.cyc (seq k m) = History.cyc k m.
Proof.
  destruct m as [|m]; [reflexivity|]. apply nth_ext'. intro i. unfold History.cyc. rewrite nth_error_map.
  destruct (Nat.lt_ge_cases i (S m)) as [L|L].
  - assert (Ls : (i < length (seq k (S m)))%nat) by (rewrite seq_length; auto).
    assert (NS : forall a n j, (j < n)%nat -> nth_error (seq a n) j = Some (a + j)%nat).
    { clear. intros a n. revert a. induction n as [|n IH]; intros a j H; [lia|]. destruct j as [|j]; simpl; [f_equal; lia|]. rewrite IH by lia. f_equal. lia. }
    destruct (cyc_nth (seq k (S m)) i Ls) as (x & y & H1 & H2 & H3). rewrite H3. rewrite NS by auto. cbn [option_map]. f_equal.
    rewrite NS in H1 by auto. injection H1 as <-. f_equal. change (0 + i)%nat with i. rewrite seq_length in H2.
    destruct (Nat.eqb_spec (S i) (S m)) as [Q|Q].
    + injection Q as ->. rewrite (Nat.mod_same (S m)) by lia. rewrite NS in H2 by lia. injection H2 as <-. reflexivity.
    + rewrite Nat.mod_small by lia. rewrite NS in H2 by lia. injection H2 as <-. reflexivity.
  - rewrite (proj2 (nth_error_None _ _)) by (rewrite cyc_len, seq_length; auto).
    rewrite (proj2 (nth_error_None _ _)) by (rewrite seq_length; auto). reflexivity.
Qed.
Lemma holes_contours_edges l : forall k, flat_map Stokes.cyc (holes_contours k l) = holes_edges PD k l.
Proof. induction l as [|s l IH]; intro k; simpl; auto. rewrite cyc_seq, IH. reflexivity. Qed.
Lemma calls_contours_edges l : forall k, flat_map Stokes.cyc (calls_contours k l) = calls_edges PD k l.
Proof.
  induction l as [|c l IH]; intro k; simpl; auto. rewrite flat_map_app, IH. f_equal. destruct c; simpl; auto.
  - rewrite app_nil_r. apply cyc_seq.
  - apply holes_contours_edges.
Qed.
(** their sides are the edges of the input *)
Lemma contours_edges src calls : flat_map Stokes.cyc (outer_contour src :: hole_contours src calls) = history_edges PD src calls.
Proof. simpl. unfold outer_contour, hole_contours, history_edges. rewrite cyc_seq, calls_contours_edges. reflexivity. Qed.

Lemma holes_contours_range l : forall k, NoDup (concat (holes_contours k l)) /\ forall v, In v (concat (holes_contours k l)) -> (k <= v < k + length (flat_map fst l))%nat.
Proof.
  induction l as [|s l IH]; intro k; simpl; [split; [constructor|contradiction]|]. destruct (IH (k + length (fst s))%nat) as [H1 H2]. rewrite app_length. split.
  - apply nodup_app; auto using seq_NoDup. intros x Hx. apply in_seq in Hx. intro Hy. apply H2 in Hy. lia.
  - intros v Hv. apply in_app_or in Hv as [Hv|Hv]; [apply in_seq in Hv; lia|]. apply H2 in Hv. lia.
Qed.
Lemma call_contours_range c k : NoDup (concat (call_contours k c)) /\ forall v, In v (concat (call_contours k c)) -> (k <= v < k + length (call_points PD c))%nat.
Proof.
  destruct c; simpl; try (split; [constructor|contradiction]).
  - rewrite app_nil_r. split; [apply seq_NoDup|]. intros v Hv. apply in_seq in Hv. lia.
  - apply holes_contours_range.
Qed.
Lemma calls_contours_range l : forall k, NoDup (concat (calls_contours k l)) /\ forall v, In v (concat (calls_contours k l)) -> (k <= v < k + length (flat_map (call_points PD) l))%nat.
Proof.
  induction l as [|c l IH]; intro k; simpl; [split; [constructor|contradiction]|]. destruct (IH (k + length (call_points PD c))%nat) as [H1 H2].
  destruct (call_contours_range c k) as [H3 H4]. rewrite concat_app, app_length. split.
  - apply nodup_app; auto. intros x Hx Hy. apply H4 in Hx. apply H2 in Hy. lia.
  - intros v Hv. apply in_app_or in Hv as [Hv|Hv]; [apply H4 in Hv; lia|]. apply H2 in Hv. lia.
Qed.
Lemma contours_range src calls : NoDup (concat (outer_contour src :: hole_contours src calls)) /\
  forall c v, In c (outer_contour src :: hole_contours src calls) -> In v c -> (v < length (history_points PD src calls))%nat.
Proof.
  unfold outer_contour, hole_contours, history_points. rewrite app_length. destruct (calls_contours_range calls (length (fst src))) as [H1 H2]. cbn [concat]. split.
  - apply nodup_app; auto using seq_NoDup. intros x Hx Hy. apply in_seq in Hx. apply H2 in Hy. lia.
  - intros c v [<-|Ic] Iv; [apply in_seq in Iv; lia|]. assert (In v (concat (calls_contours (length (fst src)) calls))) as Hv by (apply in_concat; eauto). apply H2 in Hv. lia.
Qed.
End Contours.

Section S.
Context {A : Arith} {E : Exact A}.

(** winding number of polygon c around p/k *)
Definition winds (ps : Points) (c : list nat) (k : Z) (p : zpt) : Z := wind (fun v => scaled k (zc ps v)) c p.
(** the holes lie inside the outer polygon and do not overlap *)
Definition holes_nested (ps : Points) (poly : list nat) (holes : list (list nat)) : Prop := forall k p h, 0 < k -> In h holes -> winds ps h k p <> 0 ->
  winds ps poly k p <> 0 /\ forall h', In h' holes -> h' <> h -> winds ps h' k p = 0.
(** twice the area of triangle t; of the triangles listed *)
Definition tri_area2 (ps : Points) (ts : TriangleStore) (t : nat) : Z := orient (zc ps (tv ts t I0)) (zc ps (tv ts t I1)) (zc ps (tv ts t I2)).
Definition sum_area2 (ps : Points) (ts : TriangleStore) (l : list tid) : Z :=
  fold_right (fun x acc => match x with Some t => tri_area2 ps ts t + acc | None => acc end) 0 l.

Definition valid (l : list tid) : list nat := flat_map (fun x => match x with Some i => [i] | None => [] end) l.
Lemma valid_in l i : In i (valid l) <-> In (Some i) l.
Proof.
  unfold valid. rewrite in_flat_map. split.
  - intros ([j|] & H1 & H2); simpl in H2; [destruct H2 as [->|[]]; auto|contradiction].
  - intro H. exists (Some i). simpl. auto.
Qed.
Lemma sum_valid ps ts l : sum_area2 ps ts l = zsuml (tri_area2 ps ts) (valid l).
Proof. induction l as [|[i|] l IH]; simpl; auto. unfold sum_area2 in *. rewrite IH. reflexivity. Qed.
Lemma zsum_filter (f : nat -> Z) : forall l m, NoDup l -> (forall i, In i l -> (i < m)%nat) -> zsuml f l = zsum (fun t => (if in_dec Nat.eq_dec t l then 1 else 0) * f t) m.
Proof.
  induction l as [|x l IH]; intros m ND L; [rewrite zsum_zero; auto|]. inversion ND as [|? ? Nx ND']; subst. cbn [zsuml fold_right].
  rewrite (zsum_change (fun t => (if in_dec Nat.eq_dec t l then 1 else 0) * f t) _ m x).
  - rewrite <- IH by (auto; intros; apply L; right; auto). destruct (in_dec Nat.eq_dec x (x :: l)) as [_|Q]; [|elim Q; left; auto].
    destruct (in_dec Nat.eq_dec x l) as [Q|_]; [contradiction|]. unfold zsuml. lia.
  - apply L. left. auto.
  - intros v _ Ne. f_equal. destruct (in_dec Nat.eq_dec v (x :: l)) as [[Q|Q]|Q], (in_dec Nat.eq_dec v l) as [Q'|Q']; auto; try congruence; try contradiction. elim Q. right. auto.
Qed.
Lemma valid_nodup l : NoDup l -> NoDup (valid l).
Proof.
  induction l as [|[i|] l IH]; intro H; inversion H as [|? ? N1 N2]; subst; simpl; auto; [constructor|]. constructor; auto. rewrite valid_in. exact N1.
Qed.
Lemma marked_alike ts0 ts l : Flood.marked ts0 ts l -> length ts = length ts0 /\ forall i k, tv ts i k = tv ts0 i k /\ tc ts i k = tc ts0 i k.
Proof.
  intros [L H]. split; auto. intros i k. destruct (Nat.lt_ge_cases i (length ts0)) as [Q|Q].
  - destruct (nth_error ts0 i) as [t0|] eqn:E0; [|apply nth_error_None in E0; lia]. destruct (nth_error ts i) as [t|] eqn:E1; [|apply nth_error_None in E1; lia].
    destruct (H i t0 t E0 E1) as (H1 & _ & H3 & _). unfold tv, V, tc, tri_at. rewrite (nth_error_nth _ _ _ E0), (nth_error_nth _ _ _ E1). unfold tri_is_constrained. rewrite H1, H3. auto.
  - unfold tv, tc, tri_at. rewrite !nth_overflow by lia. auto.
Qed.

(** the points that are on no contour (Steiner points) are inside the outer polygon, or have another input point up and to
    the left of them: strictly to the left and not below.  (A Steiner point outside the polygon without such a point
    can make the result empty, C31.) *)
Definition steiner_allowed PD (ps : Points) (src : source PD) (calls : list (call PD)) : Prop :=
  forall v, (v < length (history_points PD src calls))%nat -> (forall c, In c (outer_contour PD src :: hole_contours PD src calls) -> ~ In v c) ->
  winds ps (outer_contour PD src) 1 (zc ps v) <> 0 \/
  exists q, (q < length (history_points PD src calls))%nat /\ fst (zc ps q) < fst (zc ps v) /\ snd (zc ps v) <= snd (zc ps q).

Lemma fills_if_marked : forall PD dbg fuel src calls (b : Builder PD) t cbs,
  builder_of PD src calls = Done b -> let ps := c_points (build PD b) in
  proper ps -> scan_sound ps -> observed dbg fuel (build PD b) = (Done t, cbs) -> fills_ccw ps cbs ->
  let poly := outer_contour PD src in let holes := hole_contours PD src calls in
  (forall c, In c (poly :: holes) -> (3 <= length c)%nat) -> holes_nested ps poly holes ->
  constrained_exactly (tr_triangles t) (history_edges PD src calls) -> nocol ps -> steiner_allowed PD ps src calls ->
  let ts := tr_triangles t in
  (forall x, In x (tr_result t) -> exists i, x = Some i /\ forall k p, 0 < k -> strictly_in ps ts i k p ->
     winds ps poly k p <> 0 /\ forall h, In h holes -> winds ps h k p = 0) /\
  (forall k p, 0 < k -> winds ps poly k p <> 0 -> (forall h, In h holes -> winds ps h k p = 0) ->
     exists i, In (Some i) (tr_result t) /\ in_or_on ps ts i k p) /\
  sum_area2 ps ts (tr_result t) = Z.abs (area2 (zc ps) poly) - fold_right (fun h acc => Z.abs (area2 (zc ps) h) + acc) 0 holes.
Proof.
  intros PD dbg fuel src calls b t cbs B ps PP SC O F poly holes L3 NE [ME MC] NC ST ts. fold ts in ME, MC.
  destruct (C10_result_distinct PD dbg fuel src calls b t cbs B O) as [RD RR].
  destruct (C11_result_is_region PD dbg fuel src calls b t cbs B O) as (pre & cbD & cbF & EC & EvD & EvF & _ & _ & _ & MK & FAN).
  assert (CL : claim ps cbD (rev pre)).
  { apply (claim_at PD dbg fuel src calls b (Done t) pre cbD [cbF] B PP SC); [rewrite <- EC; exact O|].
    intros cb i IN. apply F. rewrite EC. apply in_or_app. apply in_app_or in IN as [IN|[<-|[]]]; [left; auto|right; left; auto]. }
  destruct (marked_alike _ _ _ MK) as [LEN ALIKE]. fold ts in LEN, ALIKE.
  set (ts0 := cb_tris cbD) in *. set (ns := nodes (cb_front cbD)) in *.
  pose proof (c_mesh _ _ _ CL) as M. fold ts0 in M. pose proof (c_fo _ _ _ CL) as FO. pose proof (c_exact _ _ _ CL) as EX. fold ts0 in EX.
  destruct (c_outer _ _ _ CL) as [BD _]; [rewrite EvD; reflexivity|]. fold ts0 ns in BD. pose proof (proj1 FO) as CH. fold ns in CH.
  destruct (front_third ps PP ts0 ns M CH BD) as (e & e' & a & N1 & N2 & TR).
  rewrite N1, TR in FAN. assert (AD : adjacent ns e e') by (exists 1%nat; auto). destruct FAN as (seed & FA & RES).
  destruct (contours_range PD src calls) as [ND RG]. fold poly holes in ND, RG.
  assert (NP : (length (history_points PD src calls) <= npts ps)%nat).
  { pose proof (History.builder_of_points _ _ _ _ B) as (B1 & _ & _). rewrite <- B1. unfold npts, ps, build, c_points, pb_build. cbn. rewrite app_length. lia. }
  assert (RG' : forall c v, In c (poly :: holes) -> In v c -> (v < npts ps)%nat) by (intros c v Ic Iv; specialize (RG c v Ic Iv); lia).
  assert (EDG : forall ed, In ed (history_edges PD src calls) <-> exists c, In c (poly :: holes) /\ In ed (Stokes.cyc c)).
  { intro ed. rewrite <- contours_edges, in_flat_map. reflexivity. }
  assert (PE : forall P, pedge ts0 P = side ts (fst P) (snd P)).
  { intro P. unfold pedge, side. rewrite !(proj1 (ALIKE _ _)). reflexivity. }
  assert (SIDES : forall c ed, In c (poly :: holes) -> In ed (Stokes.cyc c) -> is_edge ts0 ed).
  { intros c ed Ic Ie. destruct (ME ed) as (u & i & Lu & H); [apply EDG; eauto|]. exists (u, i). rewrite PE. cbn [fst snd]. split; [lia|exact H]. }
  assert (MARKS : forall P, (fst P < length ts0)%nat -> ptc ts0 P = true <-> exists c, In c (poly :: holes) /\ on c (pedge ts0 P)).
  { intros P LP. unfold ptc. rewrite <- (proj2 (ALIKE (fst P) (snd P))). rewrite (MC (fst P) (snd P)) by lia. rewrite !EDG, PE. unfold on. split.
    - intros [(c & Ic & H)|(c & Ic & H)]; exists c; auto.
    - intros (c & Ic & [H|H]); [left|right]; eauto. }
  pose proof (fan_seed_spec ps PP ts0 ns M CH BD EX poly holes ND L3 RG' SIDES MARKS e e' a seed AD TR FA) as SEED.
  destruct seed as [s0|].
  2:{ exfalso. destruct (ch_first _ _ CH) as (e0 & Ef & Hf).
      assert (HD : ps_head ps = length (history_points PD src calls)) by (pose proof (History.builder_of_points _ _ _ _ B) as (B1 & _ & _); rewrite <- B1; reflexivity).
      assert (RH : forall c v, In c (poly :: holes) -> In v c -> (v < ps_head ps)%nat) by (intros c v Ic Iv; rewrite HD; apply (RG c v Ic Iv)).
      assert (AD0 : adjacent ns e0 e) by (exists 0%nat; auto).
      destruct (seed_found ps PP ts0 ns M CH BD EX poly holes ND L3 RH SIDES MARKS e0 e e' a AD0 AD TR Hf None FA) as [Q1|Q1]; [|congruence].
      destruct (seed_winds ps PP ts0 ns M CH BD EX poly holes ND L3 RH SIDES MARKS NC e0 e e' a AD0 AD TR Hf None FA) as [Q2|Q2]; [congruence|].
      pose proof (p_in ps PP ns CH e0 e e' AD0 AD) as PI'.
      destruct (ST (en_pid e)) as [Q3|(q & Lq & X1 & X2)]; [rewrite <- HD; exact PI'|exact Q1|apply Q3, Q2; left; reflexivity|].
      rewrite <- HD in Lq. apply (first_node_unscreened ps PP ts0 ns M CH BD e0 e q AD0 Hf PI' Lq); [|exact X1|exact X2].
      destruct (run_vertices PD dbg fuel src calls b t cbs B PP SC O (fills_good _ _ F) q Lq) as (c & k & Lc & Vc). exists c, k. rewrite <- (proj1 (ALIKE c k)). split; [fold ts in Lc; lia|exact Vc]. }
  destruct SEED as (Ls & c0 & Ic0 & W0 & WN).
  assert (LR : forall i, In i (valid (tr_result t)) <-> region ts0 s0 i).
  { intro i. rewrite valid_in, RES. split; [intros (s & i' & Q1 & Q2 & H); injection Q1 as <-; injection Q2 as <-; exact H|intro H; exists s0, i; auto]. }
  split; [|split].
  - intros x Ix. destruct (RR x Ix) as (i & -> & Li). exists i. split; auto. intros k p K H.
    apply (inside_points_sound ps PP ts0 ns M CH BD EX poly holes ND L3 RG' SIDES MARKS (valid (tr_result t)) s0 c0 LR Ls Ic0 W0 WN NE k p i K).
    + apply valid_in. exact Ix.
    + apply strictly_in_inside. intro j. specialize (H j). rewrite !(proj1 (ALIKE _ _)) in H. exact H.
  - intros k p K H1 H2.
    destruct (inside_points_complete ps PP ts0 ns M CH BD EX poly holes ND L3 RG' SIDES MARKS (valid (tr_result t)) s0 c0 LR Ls Ic0 W0 WN NE k p K H1 H2) as (i & Ii & Li & Hi).
    exists i. split; [apply valid_in; auto|]. intro j. rewrite !(proj1 (ALIKE _ _)). revert j. apply in_or_on_inon.
    pose proof (mesh_scaled _ _ _ _ K M) as M'. apply (wn3_ccw _ _ _ p (m_ccw M' i Li)), Hi.
  - rewrite sum_valid. rewrite (zsum_filter _ (valid (tr_result t)) (length ts0) (valid_nodup _ RD)).
    + change (fold_right (fun h acc => Z.abs (area2 (zc ps) h) + acc) 0 holes) with (zsuml (fun h => Z.abs (area2 (zc ps) h)) holes).
      rewrite <- (inside_area ps PP ts0 ns M CH BD EX poly holes ND L3 RG' SIDES MARKS (valid (tr_result t)) s0 c0 LR Ls Ic0 W0 WN NE).
      apply zsum_ext. intros i Li. unfold rg, tarea, tri_area2. rewrite !(proj1 (ALIKE _ _)). reflexivity.
    + intros i Ii. apply valid_in in Ii. destruct (RR _ Ii) as (i' & Q & L). injection Q as <-. fold ts in L. lia.
Qed.

(** ** C26.  The returned triangles are the inside of the outer polygon minus the holes: every point strictly
    inside a returned triangle is surrounded by the outer polygon and by no hole, every point
    surrounded by the outer polygon and by no hole is in a returned triangle, and the areas match. *)
Theorem C26_result_fills_polygon : forall PD dbg fuel src calls (b : Builder PD) t cbs, eq_not_lt -> History.eq_sym ->
  builder_of PD src calls = Done b -> let ps := c_points (build PD b) in
  proper ps -> plane_input ps (history_edges PD src calls) -> observed dbg fuel (build PD b) = (Done t, cbs) -> fills_ccw ps cbs ->
  let poly := outer_contour PD src in let holes := hole_contours PD src calls in
  (forall c, In c (poly :: holes) -> (3 <= length c)%nat) -> holes_nested ps poly holes -> steiner_allowed PD ps src calls ->
  let ts := tr_triangles t in
  (forall x, In x (tr_result t) -> exists i, x = Some i /\ forall k p, 0 < k -> strictly_in ps ts i k p ->
     winds ps poly k p <> 0 /\ forall h, In h holes -> winds ps h k p = 0) /\
  (forall k p, 0 < k -> winds ps poly k p <> 0 -> (forall h, In h holes -> winds ps h k p = 0) ->
     exists i, In (Some i) (tr_result t) /\ in_or_on ps ts i k p) /\
  sum_area2 ps ts (tr_result t) = Z.abs (area2 (zc ps) poly) - fold_right (fun h acc => Z.abs (area2 (zc ps) h) + acc) 0 holes.
Proof.
  intros PD dbg fuel src calls b t cbs L Sy B ps PP PI O F poly holes L3 NE ST.
  apply (fills_if_marked PD dbg fuel src calls b t cbs B PP (scan_exact_sound _ (pi_scan _ _ PI)) O F L3 NE); auto; [|apply PI].
  eapply C41_result_marks_input; eauto.
Qed.
End S.
(** ... for f64 *)
Corollary C26_result_fills_polygon_f64 : forall PD dbg fuel (src : @source F64 PD) calls (b : Builder PD) t cbs,
  builder_of PD src calls = Done b -> let ps := c_points (build PD b) in
  proper ps -> plane_input ps (history_edges PD src calls) -> observed dbg fuel (build PD b) = (Done t, cbs) -> fills_ccw ps cbs ->
  let poly := outer_contour PD src in let holes := hole_contours PD src calls in
  (forall c, In c (poly :: holes) -> (3 <= length c)%nat) -> holes_nested ps poly holes -> steiner_allowed PD ps src calls ->
  let ts := tr_triangles t in
  (forall x, In x (tr_result t) -> exists i, x = Some i /\ forall k p, 0 < k -> strictly_in ps ts i k p ->
     winds ps poly k p <> 0 /\ forall h, In h holes -> winds ps h k p = 0) /\
  (forall k p, 0 < k -> winds ps poly k p <> 0 -> (forall h, In h holes -> winds ps h k p = 0) ->
     exists i, In (Some i) (tr_result t) /\ in_or_on ps ts i k p) /\
  sum_area2 ps ts (tr_result t) = Z.abs (area2 (zc ps) poly) - fold_right (fun h acc => Z.abs (area2 (zc ps) h) + acc) 0 holes.
Proof. intros. eapply C26_result_fills_polygon; eauto. exact F64_eq_not_lt. exact F64_eq_sym. Qed.

(** ** Non-vacuity: a triangle with a triangular hole and a Steiner point, and the seven-vertex polygon *)
Definition pair_eqb (a b : nat * nat) : bool := ((fst a =? fst b) && (snd a =? snd b))%nat.
Definition has_pair (e : nat * nat) (l : list (nat * nat)) : bool := existsb (pair_eqb e) l.
Lemma has_pair_ok e l : has_pair e l = true <-> In e l.
Proof.
  unfold has_pair. rewrite existsb_exists. split.
  - intros ([x y] & I' & H). unfold pair_eqb in H. apply andb_true_iff in H as [H1 H2]. apply Nat.eqb_eq in H1, H2. destruct e; cbn [fst snd] in *; subst. exact I'.
  - intro I'. exists e. split; auto. unfold pair_eqb. rewrite !Nat.eqb_refl. reflexivity.
Qed.
Definition hole_src : @source F64 unit := unit_src [(3,1);(61,5);(32,58)]%Z.
Definition hole_calls : list (@call F64 unit) := [CHole unit (unit_src [(25,14);(38,17);(30,29)]%Z); CSteiner unit (pt64 (29, 36)%Z) tt].

(** a triangle inside a triangle *)
Lemma triangle_in_triangle a b c d e f k p : 0 < k -> 0 < orient a b c -> 0 < orient d e f ->
  strictly_inside a b c d -> strictly_inside a b c e -> strictly_inside a b c f ->
  wn3 (scaled k d) (scaled k e) (scaled k f) p <> 0 -> wn3 (scaled k a) (scaled k b) (scaled k c) p <> 0.
Proof.
  intros K O1 O2 D1 D2 D3 H.
  assert (S1 : forall x y z, 0 < orient x y z -> 0 < orient (scaled k x) (scaled k y) (scaled k z)) by (intros x y z Q; rewrite orient_scaled; nia).
  destruct (wn3_ccw _ _ _ p (S1 _ _ _ O2)) as (W1 & _ & W3). assert (I' := W3 ltac:(lia)). destruct I' as (I1' & I2' & I3').
  destruct (wn3_ccw _ _ _ p (S1 _ _ _ O1)) as (_ & W & _). rewrite W; [lia|].
  assert (BARY : forall x y, orient x y p * orient (scaled k d) (scaled k e) (scaled k f) =
     orient x y (scaled k d) * orient (scaled k e) (scaled k f) p + orient x y (scaled k e) * orient (scaled k f) (scaled k d) p + orient x y (scaled k f) * orient (scaled k d) (scaled k e) p).
  { intros x y. generalize (scaled k d) (scaled k e) (scaled k f). intros. zpts. ring. }
  assert (SUM : orient (scaled k d) (scaled k e) p + orient (scaled k e) (scaled k f) p + orient (scaled k f) (scaled k d) p = orient (scaled k d) (scaled k e) (scaled k f)).
  { generalize (scaled k d) (scaled k e) (scaled k f). intros. zpts. ring. }
  pose proof (S1 _ _ _ O2) as O2'.
  assert (POS : forall x y, 0 < orient x y d -> 0 < orient x y e -> 0 < orient x y f -> 0 < orient (scaled k x) (scaled k y) p).
  { intros x y P1 P2 P3. apply S1 in P1, P2, P3. specialize (BARY (scaled k x) (scaled k y)).
    set (u := orient (scaled k d) (scaled k e) p) in *. set (v := orient (scaled k e) (scaled k f) p) in *. set (w := orient (scaled k f) (scaled k d) p) in *.
    set (o := orient (scaled k d) (scaled k e) (scaled k f)) in *.
    set (x1 := orient (scaled k x) (scaled k y) (scaled k d)) in *. set (x2 := orient (scaled k x) (scaled k y) (scaled k e)) in *. set (x3 := orient (scaled k x) (scaled k y) (scaled k f)) in *.
    set (r := orient (scaled k x) (scaled k y) p) in *. clearbody u v w o x1 x2 x3 r. clear - I1' I2' I3' SUM O2' P1 P2 P3 BARY.
    destruct (Z_lt_le_dec 0 r) as [Q|Q]; auto. exfalso. assert (r * o <= 0) by nia. assert (0 <= x1 * v) by nia. assert (0 <= x2 * w) by nia. assert (0 <= x3 * u) by nia.
    assert (x1 * v = 0 /\ x2 * w = 0 /\ x3 * u = 0) as (Z1 & Z2 & Z3) by lia. nia. }
  destruct D1 as (? & ? & ?), D2 as (? & ? & ?), D3 as (? & ? & ?). unfold strictly_inside. auto.
Qed.
Example region_example : exists (b : @Builder F64 unit) t cbs, builder_of unit hole_src hole_calls = Done b /\
  let ps := c_points (build unit b) in
  proper ps /\ observed false 200 (build unit b) = (Done t, cbs) /\ fills_ccw ps cbs /\
  (forall c, In c (outer_contour unit hole_src :: hole_contours unit hole_src hole_calls) -> (3 <= length c)%nat) /\
  holes_nested ps (outer_contour unit hole_src) (hole_contours unit hole_src hole_calls) /\
  plane_input ps (history_edges unit hole_src hole_calls) /\ steiner_allowed unit ps hole_src hole_calls /\ length (tr_result t) = 8%nat.
Proof.
  assert (R : match builder_of unit hole_src hole_calls with
    | Done b => let ps := c_points (build unit b) in
        properb ps && planeb ps (history_edges unit hole_src hole_calls) && negb (wind (fun v => scaled 1 (zc ps v)) [0;1;2]%nat (zc ps 6) =? 0) &&
        (0 <? orient (zc ps 0) (zc ps 1) (zc ps 2)) && (0 <? orient (zc ps 3) (zc ps 4) (zc ps 5)) &&
        forallb (fun h => (0 <? orient (zc ps 0) (zc ps 1) (zc ps h)) && (0 <? orient (zc ps 1) (zc ps 2) (zc ps h)) && (0 <? orient (zc ps 2) (zc ps 0) (zc ps h))) [3;4;5]%nat &&
        match observed false 200 (build unit b) with
        | (Done t, cbs) => forallb (goodb ps) cbs && (length (tr_result t) =? 8)%nat
        | _ => false end
    | _ => false end = true) by (vm_compute; reflexivity).
  destruct (builder_of unit hole_src hole_calls) as [b| | |]; try discriminate. cbv zeta in R.
  destruct (observed false 200 (build unit b)) as [[t| | |] cbs] eqn:O; try (rewrite andb_false_r in R; discriminate).
  rewrite !andb_true_iff, forallb_forall, !Nat.eqb_eq, !Z.ltb_lt in R. destruct R as ((((((R1 & R2) & R8) & R3) & R4) & R5) & (R6 & R7)).
  exists b, t, cbs. split; [reflexivity|]. cbv zeta. set (ps := c_points (build unit b)) in *.
  split; [apply properb_ok; auto|].
  split; [exact O|]. split; [apply goodb_ok; auto|]. unfold steiner_allowed. change (outer_contour unit hole_src) with [0;1;2]%nat. change (hole_contours unit hole_src hole_calls) with [[3;4;5]%nat].
  split; [intros c [<-|[<-|[]]]; cbn; lia|]. split; [|split; [apply planeb_ok; exact R2|split; [|exact R7]]].
  2:{ intros v Lv Nv. change (length (history_points unit hole_src hole_calls)) with 7%nat in Lv. apply negb_true_iff, Z.eqb_neq in R8.
      assert (v = 6%nat) as ->; [|left; exact R8].
      pose proof (Nv _ (or_introl eq_refl)) as Q1. pose proof (Nv _ (or_intror (or_introl eq_refl))) as Q2. simpl in Q1, Q2. lia. }
  assert (HH : forall h, In h [3;4;5]%nat -> strictly_inside (zc ps 0) (zc ps 1) (zc ps 2) (zc ps h)).
  { intros h Ih. specialize (R5 h Ih). rewrite !andb_true_iff, !Z.ltb_lt in R5. unfold strictly_inside. tauto. }
  assert (WW : forall x y z k p, winds ps [x;y;z] k p = wn3 (scaled k (zc ps x)) (scaled k (zc ps y)) (scaled k (zc ps z)) p).
  { intros. unfold winds, wind, Stokes.cyc, wn3. cbn. lia. }
  intros k p h K [<-|[]] H. rewrite !WW in *. split.
  - revert H. apply triangle_in_triangle; auto; apply HH; simpl; auto.
  - intros h' [<-|[]] Ne. congruence.
Qed.
Print Assumptions C26_result_fills_polygon.
Print Assumptions C26_result_fills_polygon_f64.
