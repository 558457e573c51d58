(** * PropsMarks: C41 - the constrained edges of the mesh are the edges of the input

    [segments_cross p q r s]: the segments pq and rs meet in one point that is inside both. *)
From Coq Require Import List Arith Bool Lia ZArith Permutation.
From Verif Require Import Base Num Shape ShapeSpec Utils Points Triangles Front Sweeper Cdt F64 Lists Monad BuilderSpec TraceSpec SortSpec Exact F64Exact FloatLaws Spec PropsBuilder PropsTrace PropsSafe
  FrontSpec Geom Mesh Rotate Setup Legal Boundary Chain FrontInv Good Init Winding Cover CoverRun Cone PropsMesh.
From Verif Require History.
Import History(call, CHole, CHoles, CSteiner, CSteiners, builder_of, call_points, history_points, history_edges, lower_first).
Import ListNotations.

(** the ends of each segment are strictly on different sides of the other *)
Definition segments_cross (p q r s : zpt) : Prop :=
  (orient p q r * orient p q s < 0)%Z /\ (orient r s p * orient r s q < 0)%Z.

Lemma edge_events_in w e : In e (edge_events w) <-> In (EvEdge e) w.
Proof.
  induction w as [|x w IH]; simpl; [tauto|]. destruct x; simpl; rewrite IH; split; intros [H|H] || intro H; auto; try (right; auto; fail); try congruence; auto.
  all: try (destruct H as [H|H]; [congruence|auto]).
  all: try (left; congruence).
Qed.

Section S.
Context {A : Arith} {E : Exact A}.

(** no three points of the input or the frame on a line, no two input edges cross, and the
    floating-point scan test gives the exact answer on these points *)
Record plane_input (ps : Points) (es : list (nat * nat)) : Prop := {
  pi_col : nocol ps;
  pi_scan : scan_exact ps;
  pi_cross : forall e e', In e es -> In e' es -> ~ segments_cross (zc ps (fst e)) (zc ps (snd e)) (zc ps (fst e')) (zc ps (snd e'))
}.
Lemma scan_exact_sound ps : scan_exact ps -> scan_sound ps.
Proof. intros H a b c d pa pb pc pd P1 P2 P3 P4 Q. apply (H a b c d pa pb pc pd P1 P2 P3 P4). exact Q. Qed.

Lemma lower_first_cases pts ij : let e := lower_first pts ij in (e_p e, e_q e) = ij \/ (e_q e, e_p e) = ij.
Proof.
  destruct ij as [i j]. unfold lower_first. cbn [fst snd]. destruct (nth_error pts i); [|left; auto]. destruct (nth_error pts j); [|left; auto]. destruct (y_less _ _); auto.
Qed.
Lemma input_edge_history PD src calls (b : Builder PD) p q : eq_not_lt -> History.eq_sym -> builder_of PD src calls = Done b ->
  input_edge (c_points (build PD b)) p q -> In (p, q) (history_edges PD src calls) \/ In (q, p) (history_edges PD src calls).
Proof.
  intros L Sy B (e & He & Hp). destruct (History.builder_of_edges PD src calls b L Sy B) as (_ & _ & P).
  change (ps_edges (c_points (build PD b))) with (pb_edges (bd_points b) ++ [ENone; ENone]) in He.
  assert (He' : nth_error (pb_edges (bd_points b)) q = Some e).
  { destruct (Nat.lt_ge_cases q (length (pb_edges (bd_points b)))) as [Lq|Lq]; [rewrite nth_error_app1 in He; auto|]. exfalso.
    rewrite nth_error_app2 in He by auto. destruct (q - length (pb_edges (bd_points b))) as [|[|k]]; simpl in He; try (injection He as <-; exact Hp). destruct k; discriminate. }
  assert (IN : In (mkEdge p q) (BuilderSpec.stored (pb_edges (bd_points b)))).
  { unfold BuilderSpec.stored. apply in_flat_map. exists (q, e). split; [apply enumerate_in; auto|]. unfold stored_at. simpl. apply in_map_iff. eauto. }
  apply (Permutation_in _ P) in IN. apply in_map_iff in IN as (ij & Q & IJ).
  destruct (lower_first_cases (pb_points (bd_points b)) ij) as [X|X]; rewrite Q in X; simpl in X; subst ij; auto.
Qed.
Lemma plane_planar PD src calls (b : Builder PD) : eq_not_lt -> History.eq_sym -> builder_of PD src calls = Done b ->
  plane_input (c_points (build PD b)) (history_edges PD src calls) -> planar (c_points (build PD b)).
Proof.
  intros L Sy B [P1 P2 P3]. constructor; auto. intros p q p' q' I1' I2' X.
  apply (input_edge_history _ _ _ _ _ _ L Sy B) in I1', I2'.
  destruct I1' as [I1'|I1'], I2' as [I2'|I2']; apply (P3 _ _ I1' I2'); cbn [fst snd].
  - exact X.
  - apply pcross_swap'. exact X.
  - apply pcross_swap. exact X.
  - apply pcross_swap, pcross_swap'. exact X.
Qed.

(** the end points of edge i of triangle t, in counter-clockwise order *)
Definition side (ts : TriangleStore) (t : nat) (i : ix) : nat * nat := (tv ts t (nxt i), tv ts t (prv i)).
Definition flipped_pair (e : nat * nat) : nat * nat := (snd e, fst e).
Definition ends (e : Edge) : nat * nat := (e_p e, e_q e).

(** ** C41.  At every callback outside legalizations the constrained edges of the mesh are exactly
    those reported with edge_event so far, and all of those are edges of the mesh. *)
Theorem C41_marks_are_reported_edges : forall PD dbg fuel src calls (b : Builder PD) r before cb after, eq_not_lt -> History.eq_sym ->
  builder_of PD src calls = Done b -> let ps := c_points (build PD b) in
  proper ps -> plane_input ps (history_edges PD src calls) -> observed dbg fuel (build PD b) = (r, before ++ cb :: after) ->
  fills_ccw ps (before ++ [cb]) -> outer (cb_event cb) = true ->
  let ts := cb_tris cb in let reported := fun e => In (EvEdge e) (map cb_event (before ++ [cb])) in
  (forall e, reported e -> exists t i, t < length ts /\ (side ts t i = ends e \/ side ts t i = flipped_pair (ends e))) /\
  (forall t i, t < length ts -> (tc ts t i = true <-> exists e, reported e /\ (side ts t i = ends e \/ side ts t i = flipped_pair (ends e)))).
Proof.
  intros PD dbg fuel src calls b r before cb after L Sy B ps PP PI O F OU ts reported.
  pose proof (scan_exact_sound _ (pi_scan _ _ PI)) as SC.
  pose proof (claim_at _ _ _ _ _ _ _ _ _ _ B PP SC O F) as C. fold ps in C. pose proof (c_mesh _ _ _ C) as M. fold ts in M.
  pose proof (c_marks _ _ _ C OU (plane_planar _ _ _ _ L Sy B PI)) as MK. fold ts in MK.
  pose proof (c_agree _ _ _ C (pi_col _ _ PI)) as FA. fold ts in FA. pose proof (c_fo _ _ _ C) as FO.
  destruct (c_outer _ _ _ C OU) as [BD _]. fold ts in BD.
  assert (RE : forall e, reported e <-> In e (edges_of (cb :: rev before))).
  { intro e. unfold reported, edges_of. rewrite edge_events_in. rewrite !in_map_iff. split; intros (x & H1 & H2); exists x; split; auto.
    - simpl. rewrite <- in_rev. apply in_app_or in H2 as [H2|[H2|[]]]; auto.
    - simpl in H2. rewrite <- in_rev in H2. apply in_or_app. destruct H2 as [<-|H2]; [right; left; auto|left; auto]. }
  assert (PE : forall P, pedge ts P = side ts (fst P) (snd P)) by reflexivity.
  assert (FF : forall x : nat * nat, flipped_pair (flipped_pair x) = x) by (intros []; reflexivity).
  assert (MKE : forall e, reported e -> exists t i, t < length ts /\ tc ts t i = true /\ (side ts t i = ends e \/ side ts t i = flipped_pair (ends e))).
  { intros e He. apply RE in He. destruct (proj2 (MK (e_p e) (e_q e))) as ([t i] & L1 & H & T); [exists e; auto|].
    exists t, i. rewrite PE in H. cbn [fst snd] in *. auto. }
  split; [intros e He; destruct (MKE e He) as (t & i & H1 & _ & H2); eauto|].
  intros t i Lt_. split.
  - intro T. destruct (proj1 (MK (fst (side ts t i)) (snd (side ts t i)))) as (e & He & H).
    + exists (t, i). split; [exact Lt_|]. split; [|exact T]. left. rewrite PE. cbn [fst snd]. unfold side. reflexivity.
    + exists e. split; [apply RE; auto|]. unfold flipped_pair, ends. cbn [fst snd]. destruct (side ts t i) as [x y]. cbn [fst snd] in H. destruct H as [H|H]; [left; auto|right; congruence].
  - intros (e & He & H). destruct (MKE e He) as (u & j & Lu & T & H').
    assert (Q : side ts u j = side ts t i \/ side ts u j = flipped_pair (side ts t i)).
    { destruct H as [->| ->], H' as [->| ->]; rewrite ?FF; auto. }
    destruct Q as [Q|Q].
    + assert (X : (u, j) = (t, i)); [|injection X as -> ->; exact T].
      apply (edge_unique ps PP ts (cb_front cb) [] M FO BD); auto.
    + assert (PR : ppaired ts (t, i) (u, j)) by (apply (edge_twin ps PP ts (cb_front cb) [] M FO BD); auto).
      rewrite (FA t i u j PR). exact T.
Qed.

(** every edge in es is an edge of the mesh, and the constrained edges of the mesh are those in es *)
Definition constrained_exactly (ts : TriangleStore) (es : list (nat * nat)) : Prop :=
  (forall e, In e es -> exists t i, t < length ts /\ (side ts t i = e \/ side ts t i = flipped_pair e)) /\
  (forall t i, t < length ts -> (tc ts t i = true <-> In (side ts t i) es \/ In (flipped_pair (side ts t i)) es)).

(** ... so in the result they are the edges of the input *)
Theorem C41_result_marks_input : forall PD dbg fuel src calls (b : Builder PD) t cbs, eq_not_lt -> History.eq_sym ->
  builder_of PD src calls = Done b -> let ps := c_points (build PD b) in
  proper ps -> plane_input ps (history_edges PD src calls) -> observed dbg fuel (build PD b) = (Done t, cbs) -> fills_ccw ps cbs ->
  constrained_exactly (tr_triangles t) (history_edges PD src calls).
Proof.
  intros PD dbg fuel src calls b t cbs L Sy B ps PP PI O F.
  destruct (result_cb _ _ _ _ _ _ _ _ B O) as (before & cb & -> & Ev & <-).
  destruct (C41_marks_are_reported_edges PD dbg fuel src calls b _ before cb [] L Sy B PP PI O F) as [H1 H2]; [rewrite Ev; reflexivity|].
  assert (FN : Forall finp (history_points PD src calls)).
  { pose proof (History.builder_of_points _ _ _ _ B) as (B1 & _ & _). rewrite <- B1. pose proof (pr_fin _ PP) as X. cbn in X. apply Forall_app in X. apply X. }
  pose proof (C04_edge_events PD dbg fuel src calls b t _ L Sy B FN O) as P.
  set (pts := history_points PD src calls) in *.
  assert (RE : forall ij, In ij (history_edges PD src calls) -> exists e, In (EvEdge e) (map cb_event (before ++ [cb])) /\ (ends e = ij \/ ends e = flipped_pair ij)).
  { intros ij IJ. exists (lower_first pts ij). split.
    - apply edge_events_in. apply (Permutation_in _ (Permutation_sym P)). apply in_map. exact IJ.
    - unfold ends. destruct (lower_first_cases pts ij) as [X|X]; [left; exact X|right; exact (f_equal flipped_pair X)]. }
  assert (ER : forall e, In (EvEdge e) (map cb_event (before ++ [cb])) -> In (ends e) (history_edges PD src calls) \/ In (flipped_pair (ends e)) (history_edges PD src calls)).
  { intros e He. apply edge_events_in in He. apply (Permutation_in _ P) in He. apply in_map_iff in He as (ij & <- & IJ). unfold ends, flipped_pair. cbn [fst snd].
    destruct (lower_first_cases pts ij) as [X|X]; rewrite X; auto. }
  assert (FF : forall x : nat * nat, flipped_pair (flipped_pair x) = x) by (intros []; reflexivity).
  split.
  - intros ij IJ. destruct (RE ij IJ) as (e & He & Q). destruct (H1 e He) as (u & i & Lu & H). exists u, i. split; auto. destruct Q as [<-|Q]; auto.
    rewrite Q in H. rewrite FF in H. tauto.
  - intros u i Lu. rewrite (H2 u i Lu). split.
    + intros (e & He & [->| ->]); destruct (ER e He) as [H|H]; rewrite ?FF; auto.
    + intros [H|H]; destruct (RE _ H) as (e & He & Q); exists e; split; auto; destruct Q as [->| ->]; rewrite ?FF; auto.
Qed.
End S.

(** ** Non-vacuity: the two examples below and in PropsRegion satisfy [plane_input] *)
Definition crossb (p q r s : zpt) : bool := ((orient p q r * orient p q s <? 0) && (orient r s p * orient r s q <? 0))%Z.
Definition planeb (ps : @Points F64) (es : list (nat * nat)) : bool :=
  nocolb ps && scanxb ps && let r := fun v => match nth_error (ps_points ps) v with Some p => rz p | None => (0, 0)%Z end in
  forallb (fun e => (fst e <? npts ps) && (snd e <? npts ps)) es &&
  forallb (fun e => forallb (fun e' => negb (crossb (r (fst e)) (r (snd e)) (r (fst e')) (r (snd e')))) es) es.
Lemma planeb_ok ps es : planeb ps es = true -> plane_input ps es.
Proof.
  unfold planeb. cbv zeta. rewrite !andb_true_iff. intros ((H1 & H2) & H4 & H3). constructor; [apply nocolb_ok; auto|apply scanxb_ok; auto|].
  unfold nocolb in H1. cbv zeta in H1. apply andb_true_iff in H1 as [RD _].
  intros e e' I1' I2' X. rewrite forallb_forall in H3, H4. specialize (H3 e I1'). rewrite forallb_forall in H3. specialize (H3 e' I2').
  pose proof (H4 e I1') as L1. pose proof (H4 e' I2') as L2. rewrite andb_true_iff, !Nat.ltb_lt in L1, L2. destruct L1 as [La Lb], L2 as [Lc Ld].
  destruct (nth_error_ex _ _ La) as [pa Ha], (nth_error_ex _ _ Lb) as [pb Hb], (nth_error_ex _ _ Lc) as [pc Hc], (nth_error_ex _ _ Ld) as [pd Hd].
  destruct (pt_red ps RD _ _ Ha) as [Ra Za], (pt_red ps RD _ _ Hb) as [Rb Zb], (pt_red ps RD _ _ Hc) as [Rc Zc], (pt_red ps RD _ _ Hd) as [Rd Zd].
  rewrite Za, Zb, Zc, Zd in X. destruct X as [X1 X2]. rewrite Ha, Hb, Hc, Hd in H3. unfold crossb in H3.
  apply negb_true_iff in H3. apply andb_false_iff in H3.
  pose proof (orient_rz_sgn pa pb pc Ra Rb Rc) as S1. pose proof (orient_rz_sgn pa pb pd Ra Rb Rd) as S2.
  pose proof (orient_rz_sgn pc pd pa Rc Rd Ra) as S3. pose proof (orient_rz_sgn pc pd pb Rc Rd Rb) as S4.
  assert (SG : forall a b c d : Z, ((a < 0 <-> c < 0) /\ (0 < a <-> 0 < c) /\ (a = 0 <-> c = 0) -> (b < 0 <-> d < 0) /\ (0 < b <-> 0 < d) /\ (b = 0 <-> d = 0) -> a * b < 0 -> c * d < 0)%Z).
  { clear. intros a b c d (A1 & A2 & A3) (B1 & B2 & B3) Q.
    destruct (Z.lt_trichotomy a 0) as [Xa|[Xa|Xa]]; [|subst a; lia|]; destruct (Z.lt_trichotomy b 0) as [Xb|[Xb|Xb]]; try (subst b; lia); try nia. }
  destruct H3 as [H3|H3]; apply Z.ltb_ge in H3; apply (Z.lt_irrefl 0); eapply Z.le_lt_trans; try exact H3.
  - apply (SG _ _ _ _ S1 S2 X1).
  - apply (SG _ _ _ _ S3 S4 X2).
Qed.
(** the seven-vertex polygon of PropsMesh, whose run flips three edges *)
Example marks_example : exists (b : @Builder F64 unit) t cbs, builder_of unit mesh_src [] = Done b /\
  proper (c_points (build unit b)) /\ plane_input (c_points (build unit b)) (history_edges unit mesh_src []) /\
  observed false 200 (build unit b) = (Done t, cbs) /\ fills_ccw (c_points (build unit b)) cbs /\
  length (tr_result t) = 5 /\ length (history_edges unit mesh_src []) = 7.
Proof.
  assert (R : match builder_of unit mesh_src [] with
    | Done b => let ps := c_points (build unit b) in
        properb ps && planeb ps (history_edges unit mesh_src []) &&
        match observed false 200 (build unit b) with
        | (Done t, cbs) => forallb (goodb ps) cbs && (length (tr_result t) =? 5)
        | _ => false end
    | _ => false end = true) by (vm_compute; reflexivity).
  destruct (builder_of unit mesh_src []) as [b| | |]; try discriminate. cbv zeta in R.
  destruct (observed false 200 (build unit b)) as [[t| | |] cbs] eqn:O; try (rewrite andb_false_r in R; discriminate).
  rewrite !andb_true_iff, !Nat.eqb_eq in R. destruct R as ((R1 & R2) & (R3 & R4)).
  exists b, t, cbs. split; [reflexivity|]. split; [apply properb_ok; auto|]. split; [apply planeb_ok; auto|].
  split; [exact O|]. split; [apply goodb_ok; auto|]. auto.
Qed.
Print Assumptions C41_marks_are_reported_edges.
Print Assumptions C41_result_marks_input.
