(** * PropsCup: inputs on which every run finishes with the right result

    [convex_below ps p q]: the edge p-q (q the upper end) leans to the right and two points below it
    follow a point on or above it without a left turn.  The theorems of PropsTotal say
    that inputs without such an edge complete.  Here: an input in convex position (no point strictly
    inside a triangle of three others) has no such edge, the result of such a run is the triangulation of
    the polygon, and examples for the hypotheses. *)
From Coq Require Import List Arith Bool Lia ZArith Permutation Sorted.
From Verif Require Import Base Num Shape ShapeSpec Utils Points Triangles Front Sweeper Cdt F64 Lists BuilderSpec History SortSpec Monad Traverse TraceSpec Grow
  Exact F64Exact FloatLaws Spec PropsBuilder PropsTrace PropsSafe FrontSpec Geom Mesh Setup Good Init Winding CoverRun Region PropsMesh PropsCover PropsMarks PropsRegion FillTotal Local PropsTotal.
Import ListNotations.

Section S.
Context {A : Arith} {E : Exact A}.

(** no input point lies strictly inside a triangle of three others *)
Definition convex_position (ps : Points) : Prop := forall a b c d,
  a < ps_head ps -> b < ps_head ps -> c < ps_head ps -> d < ps_head ps -> ~ strictly_inside (zc ps a) (zc ps b) (zc ps c) (zc ps d).

Lemma inside_of_cap (q u v w p : zpt) :
  (fst q <= fst u -> fst u < fst v -> fst v < fst w -> fst w < fst p ->
   orient q u p <= 0 -> 0 < orient q v p -> 0 < orient q w p -> orient u v w < 0 -> strictly_inside q w p v)%Z.
Proof.
  destruct q as [qx qy], u as [ux uy], v as [vx vy], w as [wx wy], p as [x y]. unfold strictly_inside. cbn [fst snd]. intros H1 H2 H3 H4 H5 H6 H7 H8.
  assert (I1 : ((wx - ux) * orient (qx,qy) (wx,wy) (vx,vy) = (wx - vx) * orient (qx,qy) (wx,wy) (ux,uy) - (wx - qx) * orient (ux,uy) (vx,vy) (wx,wy))%Z) by (zpts; ring).
  assert (I2 : ((x - qx) * orient (qx,qy) (wx,wy) (ux,uy) = (ux - qx) * orient (qx,qy) (wx,wy) (x,y) - (wx - qx) * orient (qx,qy) (ux,uy) (x,y))%Z) by (zpts; ring).
  assert (I3 : ((wx - qx) * orient (wx,wy) (x,y) (vx,vy) = (wx - vx) * orient (qx,qy) (wx,wy) (x,y) + (x - wx) * orient (qx,qy) (wx,wy) (vx,vy))%Z) by (zpts; ring).
  assert (I4 : (orient (x,y) (qx,qy) (vx,vy) = orient (qx,qy) (vx,vy) (x,y))%Z) by (zpts; ring).
  revert I1 I2 I3 I4 H5 H6 H7 H8.
  generalize (orient (qx,qy) (wx,wy) (vx,vy)) (orient (qx,qy) (wx,wy) (ux,uy)) (orient (ux,uy) (vx,vy) (wx,wy)) (orient (qx,qy) (wx,wy) (x,y)) (orient (qx,qy) (ux,uy) (x,y)) (orient (wx,wy) (x,y) (vx,vy)) (orient (x,y) (qx,qy) (vx,vy)) (orient (qx,qy) (vx,vy) (x,y)).
  intros a b c d e f g h I1 I2 I3 -> H5 H6 H7 H8.
  assert (B : (0 <= b)%Z). { assert (0 <= (ux - qx) * d)%Z by nia. assert (0 <= (wx - qx) * - e)%Z by nia. destruct (Z_lt_le_dec b 0); auto. assert ((x - qx) * b < 0)%Z by nia. lia. }
  assert (P : (0 < a)%Z). { assert (0 <= (wx - vx) * b)%Z by nia. assert (0 < (wx - qx) * - c)%Z by nia. destruct (Z_lt_le_dec 0 a); auto. assert ((wx - ux) * a <= 0)%Z by nia. lia. }
  assert (Q : (0 < f)%Z). { assert (0 < (wx - vx) * d)%Z by nia. assert (0 < (x - wx) * a)%Z by nia. destruct (Z_lt_le_dec 0 f); auto. assert ((wx - qx) * f <= 0)%Z by nia. lia. }
  auto.
Qed.

Lemma convex_no_cap ps p q : proper ps -> nocol ps -> p < ps_head ps -> q < ps_head ps -> convex_position ps -> ~ convex_below ps p q.
Proof.
  intros PP NC Lp Lq CP (X & u & Lu & v & Lv & w & Lw & H1 & H2 & H3 & H4 & H5 & H6 & H7 & H8).
  apply (CP q w p v Lq Lw Lp Lv). pose proof (pr_head ps PP).
  apply (inside_of_cap (zc ps q) (zc ps u) (zc ps v) (zc ps w) (zc ps p)); auto.
  assert (orient (zc ps u) (zc ps v) (zc ps w) <> 0)%Z by (apply NC; try lia; intros ->; lia). lia.
Qed.
End S.

(** ** f64 *)
Lemma edges_in_range PD (src : @source F64 PD) calls b p q : builder_of PD src calls = Done b -> let ps := c_points (build PD b) in
  proper ps -> input_edge ps p q -> p < ps_head ps /\ q < ps_head ps.
Proof.
  intros B ps PP I'.
  assert (R : forall i j, In (i, j) (history_edges PD src calls) -> i < ps_head ps /\ j < ps_head ps).
  { intros i j IN. destruct (History.builder_of_edges PD src calls b F64_eq_not_lt F64_eq_sym B) as (_ & RG & _).
    change (ps_head ps) with (length (pb_points (bd_points b))). apply (apart_lt _ (i, j) (RG (i, j) IN)). }
  destruct (input_edge_history PD src calls b p q F64_eq_not_lt F64_eq_sym B I') as [IN|IN]; apply R in IN; tauto.
Qed.

(** C28, C29 and C26 together: an input in general position without crossing edges, each right-leaning edge of which has only a cup
    below it, is triangulated: the call returns, in both build profiles, and what it returns is the inside of the
    outer polygon minus the holes. *)
Theorem C28_cup_inputs_triangulated_partial : forall PD (src : @source F64 PD) calls (b : Builder PD),
  builder_of PD src calls = Done b -> let ps := c_points (build PD b) in
  proper ps -> plane_input ps (history_edges PD src calls) -> eps_ok ps -> exact_fills ps ->
  (forall p q, input_edge ps p q -> ~ convex_below ps p q) ->
  let poly := outer_contour PD src in let holes := hole_contours PD src calls in
  (forall c, In c (poly :: holes) -> (3 <= length c)%nat) -> holes_nested ps poly holes -> steiner_allowed PD ps src calls ->
  forall dbg, exists t cbs, (forall fuel, steps (length (history_points PD src calls)) <= fuel -> observed dbg fuel (build PD b) = (Done t, cbs)) /\
  let ts := tr_triangles t in
  (forall x, In x (tr_result t) -> exists i, x = Some i /\ forall k p, (0 < k)%Z -> strictly_in ps ts i k p ->
     (winds ps poly k p <> 0)%Z /\ forall h, In h holes -> winds ps h k p = 0%Z) /\
  (forall k p, (0 < k)%Z -> (winds ps poly k p <> 0)%Z -> (forall h, In h holes -> winds ps h k p = 0%Z) ->
     exists i, In (Some i) (tr_result t) /\ in_or_on ps ts i k p) /\
  (sum_area2 ps ts (tr_result t) = Z.abs (area2 (zc ps) poly) - fold_right (fun h acc => Z.abs (area2 (zc ps) h) + acc) 0 holes)%Z.
Proof.
  intros PD src calls b B ps PP PI EO EF CUP poly holes L3 HN ST dbg.
  assert (NE : history_points PD src calls <> []).
  { intro Q. specialize (L3 poly (or_introl eq_refl)). unfold poly, outer_contour in L3. rewrite seq_length in L3.
    unfold history_points in Q. apply app_eq_nil in Q as [Q _]. rewrite Q in L3. cbn in L3. lia. }
  assert (PN : planar ps) by (apply (plane_planar PD src calls b F64_eq_not_lt F64_eq_sym B PI)).
  destruct (C28_cup_inputs_complete_partial PD dbg src calls b B NE PP PN EO EF CUP) as (t & cbs & H).
  exists t, cbs. split; [intros fuel LE; apply H; auto|]. destruct (H _ (le_n _)) as [O F].
  apply (C26_result_fills_polygon_f64 PD dbg _ src calls b t cbs B PP PI O F L3 HN ST).
Qed.

(** in particular an input in convex position *)
Corollary C28_convex_position_triangulated_partial : forall PD (src : @source F64 PD) calls (b : Builder PD),
  builder_of PD src calls = Done b -> let ps := c_points (build PD b) in
  proper ps -> plane_input ps (history_edges PD src calls) -> eps_ok ps -> exact_fills ps -> convex_position ps ->
  let poly := outer_contour PD src in let holes := hole_contours PD src calls in
  (forall c, In c (poly :: holes) -> (3 <= length c)%nat) -> holes_nested ps poly holes -> steiner_allowed PD ps src calls ->
  forall dbg, exists t cbs, (forall fuel, steps (length (history_points PD src calls)) <= fuel -> observed dbg fuel (build PD b) = (Done t, cbs)) /\
  (sum_area2 ps (tr_triangles t) (tr_result t) = Z.abs (area2 (zc ps) poly) - fold_right (fun h acc => Z.abs (area2 (zc ps) h) + acc) 0 holes)%Z.
Proof.
  intros PD src calls b B ps PP PI EO EF CP poly holes L3 HN ST dbg.
  destruct (C28_cup_inputs_triangulated_partial PD src calls b B PP PI EO EF) with (dbg := dbg) as (t & cbs & H1 & _ & _ & H2); auto.
  - intros p q I'. destruct (edges_in_range PD src calls b p q B PP I') as [L1 L2]. apply convex_no_cap; auto. apply PI.
  - exists t, cbs. auto.
Qed.

(** ** checkers *)
Definition rzc (ps : @Points F64) (v : nat) : zpt := match nth_error (ps_points ps) v with Some p => rz p | None => (0, 0)%Z end.
Definition fillsb (ps : @Points F64) : bool :=
  forallb redb (ps_points ps) &&
  let l := map (fun p => (p, rz p)) (ps_points ps) in
  forallb (fun a => forallb (fun b => Bool.eqb (f_le (px (fst a)) (f_add (px (fst b)) f_eps)) (fst (snd a) <=? fst (snd b))%Z) l) l &&
  forallb (fun o => forallb (fun a => forallb (fun b => is_negative (angle_new (fst o) (fst a) (fst b)) || (0 <=? orient (snd o) (snd a) (snd b))%Z) l) l) l.
Lemma rz_x_le a b : redb a = true -> redb b = true -> (fst (zp a) <= fst (zp b) <-> fst (rz a) <= fst (rz b))%Z.
Proof.
  intros Ra Rb. rewrite (redb_ok a Ra), (redb_ok b Rb). cbn [fst].
  assert (P : (0 < 2 ^ 1010)%Z) by (apply Z.pow_pos_nonneg; lia). revert P. generalize (2 ^ 1010)%Z. intros k P. split; nia.
Qed.
Lemma fillsb_ok ps : fillsb ps = true -> eps_ok ps /\ exact_fills ps.
Proof.
  unfold fillsb. cbv zeta. rewrite !andb_true_iff. intros (RD & H1 & H2). rewrite forallb_forall in H1, H2.
  assert (G : forall i p, nth_error (ps_points ps) i = Some p -> In (p, rz p) (map (fun p => (p, rz p)) (ps_points ps)) /\ redb p = true /\ zc ps i = zp p).
  { intros i p Hp. split; [apply (in_map (fun p => (p, rz p))); eapply nth_error_In; eauto|]. apply (pt_red ps RD i p Hp). }
  split.
  - intros a b pa pb Ha Hb Q. destruct (G _ _ Ha) as (Ia & Ra & Za), (G _ _ Hb) as (Ib & Rb & Zb). rewrite Za, Zb in Q.
    specialize (H1 _ Ia). rewrite forallb_forall in H1. specialize (H1 _ Ib). cbn [fst snd] in H1. apply eqb_prop in H1. rewrite H1. apply Z.leb_le. apply rz_x_le; auto. rewrite Q. apply Z.le_refl.
  - constructor.
    + intros a b pa pb Ha Hb Q. destruct (G _ _ Ha) as (Ia & Ra & ->), (G _ _ Hb) as (Ib & Rb & ->).
      specialize (H1 _ Ia). rewrite forallb_forall in H1. specialize (H1 _ Ib). cbn [fst snd] in H1. apply eqb_prop in H1. apply rz_x_le; auto. apply Z.leb_le. congruence.
    + intros o a b po pa pb Ho Ha Hb Q. destruct (G _ _ Ho) as (Io & Ro & ->), (G _ _ Ha) as (Ia & Ra & ->), (G _ _ Hb) as (Ib & Rb & ->).
      specialize (H2 _ Io). rewrite forallb_forall in H2. specialize (H2 _ Ia). rewrite forallb_forall in H2. specialize (H2 _ Ib). cbn [fst snd] in H2.
      rewrite Q in H2. apply Z.leb_le in H2. pose proof (orient_rz_sgn po pa pb Ro Ra Rb). lia.
Qed.
Definition capb (ps : @Points F64) (p q : nat) : bool :=
  let z := rzc ps in let l := map z (seq 0 (ps_head ps)) in let zp := z p in let zq := z q in
  (fst zq <? fst zp)%Z && existsb (fun u => existsb (fun v => existsb (fun w =>
    ((fst zq <=? fst u) && (fst u <? fst v) && (fst v <? fst w) && (fst w <? fst zp) && (orient zq u zp <=? 0) && (0 <? orient zq v zp) && (0 <? orient zq w zp) && (orient u v w <=? 0))%Z) l) l) l.
Definition nocapb (ps : @Points F64) : bool :=
  forallb redb (ps_points ps) && (ps_head ps <=? npts ps) &&
  forallb (fun q => match nth_error (ps_edges ps) q with Some es => forallb (fun p => (p <? npts ps) && negb (capb ps p q)) (edges_list es) | None => true end) (seq 0 (npts ps)) &&
  (length (ps_edges ps) <=? npts ps).
Lemma nocapb_ok ps : nocapb ps = true -> forall p q, input_edge ps p q -> ~ convex_below ps p q.
Proof.
  unfold nocapb. rewrite !andb_true_iff. intros (((RD & LH) & H) & LE) p q (es & He & Ip).
  apply Nat.leb_le in LH, LE. rewrite forallb_forall in H. pose proof (nth_error_lt _ _ _ He) as Lq. specialize (H q). rewrite in_seq in H. specialize (H ltac:(lia)).
  rewrite He in H. rewrite forallb_forall in H. specialize (H p Ip). apply andb_true_iff in H as [Lp H]. apply Nat.ltb_lt in Lp. apply negb_true_iff in H.
  intros (X & u & Lu & v & Lv & w & Lw & C). apply Bool.not_true_iff_false in H. apply H. clear H.
  assert (G : forall i, i < npts ps -> exists p, nth_error (ps_points ps) i = Some p /\ redb p = true /\ zc ps i = zp p /\ rzc ps i = rz p).
  { intros i Li. destruct (nth_error_ex _ _ Li) as [x Hx]. exists x. split; auto. destruct (pt_red ps RD i x Hx). unfold rzc. rewrite Hx. auto. }
  destruct (G p ltac:(lia)) as (pp & _ & Rp & Zp & Qp), (G q ltac:(lia)) as (pq & _ & Rq & Zq & Qq), (G u ltac:(lia)) as (pu & _ & Ru & Zu & Qu), (G v ltac:(lia)) as (pv & _ & Rv & Zv & Qv), (G w ltac:(lia)) as (pw & _ & Rw & Zw & Qw).
  rewrite Zp, Zq, Zu, Zv, Zw in *. destruct C as (C1 & C2 & C3 & C4 & C5 & C6 & C7 & C8).
  assert (LT : forall a b, redb a = true -> redb b = true -> (fst (zp a) < fst (zp b) -> fst (rz a) < fst (rz b))%Z).
  { intros a b Ra Rb Q. pose proof (rz_x_le b a Rb Ra). lia. }
  unfold capb. cbv zeta. apply andb_true_iff. split; [apply Z.ltb_lt; rewrite Qp, Qq; auto|].
  assert (IN : forall i, i < ps_head ps -> In (rzc ps i) (map (rzc ps) (seq 0 (ps_head ps)))) by (intros i Li; apply in_map, in_seq; lia).
  apply existsb_exists. exists (rzc ps u). split; [auto|]. apply existsb_exists. exists (rzc ps v). split; [auto|]. apply existsb_exists. exists (rzc ps w). split; [auto|].
  rewrite Qp, Qq, Qu, Qv, Qw. apply (rz_x_le _ _ Rq Ru) in C1. apply LT in C2, C3, C4; auto.
  pose proof (orient_rz_sgn pq pu pp Rq Ru Rp). pose proof (orient_rz_sgn pq pv pp Rq Rv Rp). pose proof (orient_rz_sgn pq pw pp Rq Rw Rp). pose proof (orient_rz_sgn pu pv pw Ru Rv Rw).
  rewrite !andb_true_iff, !Z.leb_le, !Z.ltb_lt. repeat split; try assumption; lia.
Qed.
Lemma capb_ok ps p q : forallb redb (ps_points ps) = true -> ps_head ps <= npts ps -> p < npts ps -> q < npts ps -> capb ps p q = true -> convex_below ps p q.
Proof.
  intros RD LH Lp Lq H.
  assert (G : forall i, i < npts ps -> exists p, nth_error (ps_points ps) i = Some p /\ redb p = true /\ zc ps i = zp p /\ rzc ps i = rz p).
  { intros i Li. destruct (nth_error_ex _ _ Li) as [x Hx]. exists x. split; auto. destruct (pt_red ps RD i x Hx). unfold rzc. rewrite Hx. auto. }
  unfold capb in H. cbv zeta in H. apply andb_true_iff in H as [X H].
  apply existsb_exists in H as (zu & Iu & H). apply existsb_exists in H as (zv & Iv & H). apply existsb_exists in H as (zw & Iw & H).
  apply in_map_iff in Iu as (u & <- & Iu). apply in_map_iff in Iv as (v & <- & Iv). apply in_map_iff in Iw as (w & <- & Iw). apply in_seq in Iu, Iv, Iw.
  destruct (G p ltac:(lia)) as (pp & _ & Rp & Zp & Qp), (G q ltac:(lia)) as (pq & _ & Rq & Zq & Qq), (G u ltac:(lia)) as (pu & _ & Ru & Zu & Qu), (G v ltac:(lia)) as (pv & _ & Rv & Zv & Qv), (G w ltac:(lia)) as (pw & _ & Rw & Zw & Qw).
  rewrite Qp, Qq in *. rewrite Qu, Qv, Qw in *. rewrite !andb_true_iff, !Z.leb_le, !Z.ltb_lt in H. apply Z.ltb_lt in X. destruct H as (((((((C1 & C2) & C3) & C4) & C5) & C6) & C7) & C8).
  assert (LT : forall a b, redb a = true -> redb b = true -> (fst (rz a) < fst (rz b) -> fst (zp a) < fst (zp b))%Z).
  { intros a b Ra Rb Q. pose proof (rz_x_le b a Rb Ra). lia. }
  pose proof (orient_rz_sgn pq pu pp Rq Ru Rp). pose proof (orient_rz_sgn pq pv pp Rq Rv Rp). pose proof (orient_rz_sgn pq pw pp Rq Rw Rp). pose proof (orient_rz_sgn pu pv pw Ru Rv Rw).
  unfold convex_below. rewrite Zp, Zq. split; [auto|]. exists u. split; [lia|]. exists v. split; [lia|]. exists w. split; [lia|]. rewrite Zu, Zv, Zw.
  apply (rz_x_le _ _ Rq Ru) in C1. apply LT in C2, C3, C4; auto. repeat (split; [assumption || lia|]). lia.
Qed.

(** ** examples *)
(** the triangle with a triangular hole and a Steiner point satisfies the hypotheses of
    [C28_cup_inputs_triangulated_partial] *)
Example cup_example : exists (b : @Builder F64 unit), builder_of unit hole_src hole_calls = Done b /\ let ps := c_points (build unit b) in
  proper ps /\ plane_input ps (history_edges unit hole_src hole_calls) /\ eps_ok ps /\ exact_fills ps /\ (forall p q, input_edge ps p q -> ~ convex_below ps p q) /\
  (forall c, In c (outer_contour unit hole_src :: hole_contours unit hole_src hole_calls) -> (3 <= length c)%nat) /\
  holes_nested ps (outer_contour unit hole_src) (hole_contours unit hole_src hole_calls) /\ steiner_allowed unit ps hole_src hole_calls.
Proof.
  assert (R : match builder_of unit hole_src hole_calls with
    | Done b => let ps := c_points (build unit b) in properb ps && planeb ps (history_edges unit hole_src hole_calls) && fillsb ps && nocapb ps
    | _ => false end = true) by (vm_compute; reflexivity).
  destruct region_example as (b & t & cbs & B & X). cbv zeta in X. rewrite B in R. cbv zeta in R. rewrite !andb_true_iff in R. destruct R as (((R1 & R2) & R3) & R4).
  destruct X as (X1 & _ & _ & X2 & X3 & X4 & X5 & _).
  exists b. split; [exact B|]. cbv zeta. destruct (fillsb_ok _ R3). split; auto. split; auto. split; auto. split; auto. split; [apply nocapb_ok; auto|]. auto.
Qed.

(** a convex polygon with nine corners *)
Definition convexb (ps : @Points F64) : bool :=
  forallb redb (ps_points ps) && (ps_head ps <=? npts ps) && let l := map (rzc ps) (seq 0 (ps_head ps)) in
  forallb (fun a => forallb (fun b => forallb (fun c => forallb (fun d => negb ((0 <? orient a b d) && (0 <? orient b c d) && (0 <? orient c a d))%Z) l) l) l) l.
Lemma convexb_ok ps : convexb ps = true -> convex_position ps.
Proof.
  unfold convexb. cbv zeta. rewrite !andb_true_iff. intros ((RD & LH) & H) a b c d La Lb Lc Ld (H1 & H2 & H3). apply Nat.leb_le in LH.
  assert (G : forall i, i < npts ps -> exists p, nth_error (ps_points ps) i = Some p /\ redb p = true /\ zc ps i = zp p /\ rzc ps i = rz p).
  { intros i Li. destruct (nth_error_ex _ _ Li) as [x Hx]. exists x. split; auto. destruct (pt_red ps RD i x Hx). unfold rzc. rewrite Hx. auto. }
  assert (IN : forall i, i < ps_head ps -> In (rzc ps i) (map (rzc ps) (seq 0 (ps_head ps)))) by (intros i Li; apply in_map, in_seq; lia).
  rewrite forallb_forall in H. specialize (H _ (IN a La)). rewrite forallb_forall in H. specialize (H _ (IN b Lb)). rewrite forallb_forall in H. specialize (H _ (IN c Lc)). rewrite forallb_forall in H. specialize (H _ (IN d Ld)).
  destruct (G a ltac:(lia)) as (pa & _ & Ra & Za & Qa), (G b ltac:(lia)) as (pb & _ & Rb & Zb & Qb), (G c ltac:(lia)) as (pc & _ & Rc & Zc & Qc), (G d ltac:(lia)) as (pd & _ & Rd & Zd & Qd).
  rewrite Za, Zb, Zc, Zd in *. rewrite Qa, Qb, Qc, Qd in H. apply negb_true_iff, Bool.not_true_iff_false in H. apply H. rewrite !andb_true_iff, !Z.ltb_lt.
  pose proof (orient_rz_sgn pa pb pd Ra Rb Rd). pose proof (orient_rz_sgn pb pc pd Rb Rc Rd). pose proof (orient_rz_sgn pc pa pd Rc Ra Rd). tauto.
Qed.
Definition convex_src : @source F64 unit := unit_src [(0,10);(3,3);(9,0);(19,2);(25,9);(24,15);(17,22);(10,21);(3,16)]%Z.
Example convex_example : exists (b : @Builder F64 unit), builder_of unit convex_src [] = Done b /\ let ps := c_points (build unit b) in
  proper ps /\ plane_input ps (history_edges unit convex_src []) /\ eps_ok ps /\ exact_fills ps /\ convex_position ps /\ steiner_allowed unit ps convex_src [] /\
  holes_nested ps (outer_contour unit convex_src) (hole_contours unit convex_src []).
Proof.
  assert (R : match builder_of unit convex_src [] with
    | Done b => let ps := c_points (build unit b) in properb ps && planeb ps (history_edges unit convex_src []) && fillsb ps && convexb ps
    | _ => false end = true) by (vm_compute; reflexivity).
  destruct (builder_of unit convex_src []) as [b| | |] eqn:B; try discriminate. cbv zeta in R. rewrite !andb_true_iff in R. destruct R as (((R1 & R2) & R3) & R4).
  exists b. split; [reflexivity|]. cbv zeta. destruct (fillsb_ok _ R3). split; [apply properb_ok; auto|]. split; [apply planeb_ok; auto|]. split; auto. split; auto. split; [apply convexb_ok; auto|].
  split.
  - intros v Lv Nv. exfalso. apply (Nv _ (or_introl eq_refl)). change (length (history_points unit convex_src [])) with 9 in Lv. change (outer_contour unit convex_src) with (seq 0 9). apply in_seq. lia.
  - intros k p h _ [].
Qed.

(** the run of C22: a pentagon one of whose triangles is inverted when it is announced *)
Definition inverted_src : @source F64 unit := unit_src [(5,16);(7,10);(8,6);(14,1);(18,4)]%Z.
Fixpoint split_bad {X} (f : X -> bool) (l : list X) : option (list X * X * list X) :=
  match l with
  | [] => None
  | x :: l' => if f x then match split_bad f l' with Some (a, b, c) => Some (x :: a, b, c) | None => None end else Some ([], x, l')
  end.
Lemma split_bad_ok {X} (f : X -> bool) l a b c : split_bad f l = Some (a, b, c) -> l = a ++ b :: c /\ forallb f a = true /\ f b = false.
Proof.
  revert a b c. induction l as [|x l IH]; intros a b c H; cbn in H; [discriminate|]. destruct (f x) eqn:F; [|injection H as <- <- <-; auto].
  destruct (split_bad f l) as [[[a' b'] c']|]; [|discriminate]. injection H as <- <- <-. destruct (IH _ _ _ eq_refl) as (-> & H1 & H2). cbn. rewrite F. auto.
Qed.
Example inversion_example : exists (b : @Builder F64 unit) r before cb after, builder_of unit inverted_src [] = Done b /\ let ps := c_points (build unit b) in
  proper ps /\ plane_input ps (history_edges unit inverted_src []) /\ eps_ok ps /\ exact_fills ps /\
  observed false 200 (build unit b) = (r, before ++ cb :: after) /\ fills_ccw ps before /\ ~ fills_ccw ps (before ++ [cb]) /\
  exists t, fst (observed false 200 (build unit b)) = Done t.
Proof.
  assert (R : match builder_of unit inverted_src [] with
    | Done b => let ps := c_points (build unit b) in properb ps && planeb ps (history_edges unit inverted_src []) && fillsb ps &&
       match observed false 200 (build unit b) with (Done _, cbs) => match split_bad (goodb ps) cbs with Some _ => true | None => false end | _ => false end
    | _ => false end = true) by (vm_compute; reflexivity).
  destruct (builder_of unit inverted_src []) as [b| | |] eqn:B; try discriminate. cbv zeta in R. rewrite !andb_true_iff in R. destruct R as (((R1 & R2) & R3) & R4).
  destruct (observed false 200 (build unit b)) as [[t| | |] cbs] eqn:O; try discriminate.
  destruct (split_bad (goodb (c_points (build unit b))) cbs) as [[[before cb] after]|] eqn:SB; [|discriminate]. apply split_bad_ok in SB as (-> & G1 & G2).
  exists b, (Done t), before, cb, after. split; [reflexivity|]. cbv zeta. destruct (fillsb_ok _ R3). split; [apply properb_ok; auto|]. split; [apply planeb_ok; auto|]. split; auto. split; auto. split; [exact O|].
  split; [apply goodb_ok; auto|]. split; [|exists t; rewrite O; reflexivity].
  intro F. unfold goodb in G2. destruct (cb_event cb) as [| | | | |[i|]| | |] eqn:EV; try discriminate. apply orb_false_iff in G2 as [G2 G3].
  apply negb_false_iff, Nat.eqb_eq in G2. apply Z.ltb_ge in G3. specialize (F cb i). rewrite in_app_iff in F. specialize (F (or_intror (or_introl eq_refl)) EV G2). lia.
Qed.
Print Assumptions fuel_irrelevant.
Print Assumptions C28_completes_or_inverts.
Print Assumptions C22_point_event_completes.
Print Assumptions C22_first_inversion.
Print Assumptions C22_failures_come_from_edges.
Print Assumptions C28_cup_inputs_complete_partial.
Print Assumptions C28_cup_inputs_triangulated_partial.
Print Assumptions C28_convex_position_triangulated_partial.
