(** * PropsCover: C25 and the full C24 - the triangles of the mesh never overlap

    Points of the plane are written p/k: [p] has integer coordinates and the unit is divided by
    k > 0 ([scaled k] multiplies a coordinate pair by k), so all rational points are covered. *)
From Coq Require Import List Arith Bool Lia ZArith.
From Verif Require Import Base Num Shape ShapeSpec Utils Points Triangles Front Sweeper Cdt F64 Lists Monad History Exact PropsBuilder PropsTrace
  FrontSpec Geom Mesh Rotate Setup Boundary Chain FrontInv Good Winding Cover CoverRun PropsMesh.
Import ListNotations.

Section S.
Context {A : Arith} {E : Exact A}.

(** p/k lies strictly inside triangle t; strictly inside or on its boundary *)
Definition strictly_in (ps : Points) (ts : TriangleStore) (t : nat) (k : Z) (p : zpt) : Prop :=
  forall i, (0 < orient (scaled k (zc ps (tv ts t (nxt i)))) (scaled k (zc ps (tv ts t (prv i)))) p)%Z.
Definition in_or_on (ps : Points) (ts : TriangleStore) (t : nat) (k : Z) (p : zpt) : Prop :=
  forall i, (0 <= orient (scaled k (zc ps (tv ts t (nxt i)))) (scaled k (zc ps (tv ts t (prv i)))) p)%Z.
(** p/k lies above or on the bottom edge head-tail, and strictly below the front: below the
    edge of the front whose x-range contains it *)
Definition above_base_below_front (ps : Points) (ns : list Entry) (k : Z) (p : zpt) : Prop :=
  (0 <= orient (scaled k (zc ps (ps_head ps))) (scaled k (zc ps (ps_tail ps))) p)%Z /\
  exists n e e', nth_error ns n = Some e /\ nth_error ns (S n) = Some e' /\
    (k * fst (zc ps (en_pid e)) <= fst p < k * fst (zc ps (en_pid e')))%Z /\
    (orient (scaled k (zc ps (en_pid e))) (scaled k (zc ps (en_pid e'))) p < 0)%Z.

Lemma strictly_in_inside ps ts t k p : strictly_in ps ts t k p <-> inside (fun v => scaled k (zc ps v)) ts t p.
Proof.
  unfold strictly_in, inside, strictly_inside. split.
  - intro H. pose proof (H I0). pose proof (H I1). pose proof (H I2). auto.
  - intros (H1 & H2 & H3) []; auto.
Qed.
Lemma in_or_on_inon ps ts t k p : in_or_on ps ts t k p <-> inon (fun v => scaled k (zc ps v)) ts t p.
Proof.
  unfold in_or_on, inon, inside_or_on. split.
  - intro H. pose proof (H I0). pose proof (H I1). pose proof (H I2). auto.
  - intros (H1 & H2 & H3) []; auto.
Qed.
Lemma between_iff ps ns k p : proper ps -> chain ps ns -> (0 < k)%Z ->
  (above_base_below_front ps ns k p <-> between (fun v => scaled k (zc ps v)) (ps_head ps) (ps_tail ps) ns p).
Proof.
  intros PP C K. destruct (chain_vs ps PP ns C) as (_ & N2 & N3 & N4).
  unfold above_base_below_front, between, spans. split.
  - intros (H1 & (n & e & e' & E1 & E2 & H2 & H3)).
    assert (V1 : nth_error (map en_pid ns) n = Some (en_pid e)) by (rewrite nth_error_map, E1; auto).
    assert (V2 : nth_error (map en_pid ns) (S n) = Some (en_pid e')) by (rewrite nth_error_map, E2; auto).
    split; [|split; [exact H1|exists (en_pid e), (en_pid e'); split; [apply in_pairs; eauto|split; auto]]].
    pose proof (nth_error_lt _ _ _ V2). pose proof (N4 0 n _ _ ltac:(lia) N2 V1). pose proof (N4 (S n) (length (map en_pid ns) - 1) _ _ ltac:(lia) V2 N3).
    unfold scaled. cbn [fst snd]. nia.
  - intros (H0 & H1 & (v & v' & IN & H2 & H3)). split; [exact H1|]. apply (adj_pairs ns) in IN as (e & e' & (n & E1 & E2) & <- & <-).
    exists n, e, e'. auto.
Qed.

(** ** C25.  At every callback, for every rational point p/k: no two triangles have it strictly
    inside; if it is above the base and below the front some triangle contains it; if a triangle
    contains it strictly, it is above the base and below the front. *)
Theorem C25_covered_once : forall PD dbg fuel src calls (b : Builder PD) r before cb after,
  builder_of PD src calls = Done b -> let ps := c_points (build PD b) in
  proper ps -> scan_sound ps -> observed dbg fuel (build PD b) = (r, before ++ cb :: after) ->
  fills_ccw ps (before ++ [cb]) ->
  let ts := cb_tris cb in let ns := nodes (cb_front cb) in
  forall k p, (0 < k)%Z ->
  (forall t u, t < length ts -> u < length ts -> strictly_in ps ts t k p -> strictly_in ps ts u k p -> t = u) /\
  (above_base_below_front ps ns k p -> exists t, t < length ts /\ in_or_on ps ts t k p) /\
  (forall t, t < length ts -> strictly_in ps ts t k p -> above_base_below_front ps ns k p).
Proof.
  intros PD dbg fuel src calls b r before cb after B ps PP SC O F ts ns k p K.
  pose proof (claim_at _ _ _ _ _ _ _ _ _ _ B PP SC O F) as C. fold ps in C. pose proof (c_mesh _ _ _ C) as M. fold ts in M.
  destruct (c_bnd _ _ _ C) as [R0 BD]. fold ts ns in BD. pose proof (c_fo _ _ _ C) as FO.
  destruct (chain_vs ps PP _ (proj1 FO)) as (N1 & N2 & N3 & N4). fold ns in N1, N2, N3, N4.
  pose proof (mesh_scaled _ _ _ _ K M) as M'. pose proof (monotone_scaled ps _ _ K N4) as N4'.
  split; [|split].
  - intros t u Lt_ Lu H1 H2. apply strictly_in_inside in H1, H2. eapply (once ps PP ts (cb_front cb) R0 M FO BD k p t u K); eauto.
  - intro H. apply (between_iff ps ns k p PP (proj1 FO) K) in H. destruct (cover_all _ _ _ _ _ _ _ M' BD N1 N2 N3 N4' p H) as (t & L & I').
    exists t. split; [exact L|]. apply in_or_on_inon. exact I'.
  - intros t L H. apply strictly_in_inside in H. apply (between_iff ps ns k p PP (proj1 FO) K). exact (cover_only _ _ _ _ _ _ _ M' BD N1 N2 N3 N4' p t L H).
Qed.
(** for a point on no triangle's boundary: exactly once between base and front, never elsewhere *)
Corollary C25_generic_point : forall PD dbg fuel src calls (b : Builder PD) r before cb after,
  builder_of PD src calls = Done b -> let ps := c_points (build PD b) in
  proper ps -> scan_sound ps -> observed dbg fuel (build PD b) = (r, before ++ cb :: after) ->
  fills_ccw ps (before ++ [cb]) ->
  let ts := cb_tris cb in let ns := nodes (cb_front cb) in
  forall k p, (0 < k)%Z -> (forall t, t < length ts -> in_or_on ps ts t k p -> strictly_in ps ts t k p) ->
  (above_base_below_front ps ns k p <-> exists! t, t < length ts /\ strictly_in ps ts t k p).
Proof.
  intros PD dbg fuel src calls b r before cb after B ps PP SC O F ts ns k p K G.
  destruct (C25_covered_once PD dbg fuel src calls b r before cb after B PP SC O F k p K) as (H1 & H2 & H3). fold ps ts ns in H1, H2, H3.
  split.
  - intro H. destruct (H2 H) as (t & L & I'). exists t. split; [auto|]. intros u [Lu Su]. apply H1; auto.
  - intros (t & (L & S') & _). eauto.
Qed.

(** no two triangles have the same directed edge: an edge belongs to at most two triangles, and
    if to two, they are listed as neighbours *)
Theorem C25_edges_unique : forall PD dbg fuel src calls (b : Builder PD) r before cb after,
  builder_of PD src calls = Done b -> let ps := c_points (build PD b) in
  proper ps -> scan_sound ps -> observed dbg fuel (build PD b) = (r, before ++ cb :: after) ->
  fills_ccw ps (before ++ [cb]) ->
  let ts := cb_tris cb in
  forall t i u j, t < length ts -> u < length ts ->
  (tv ts t (nxt i) = tv ts u (nxt j) -> tv ts t (prv i) = tv ts u (prv j) -> t = u /\ i = j) /\
  (tv ts t (nxt i) = tv ts u (prv j) -> tv ts t (prv i) = tv ts u (nxt j) -> tn ts t i = Some u /\ tn ts u j = Some t).
Proof.
  intros PD dbg fuel src calls b r before cb after B ps PP SC O F ts t i u j Lt_ Lu.
  pose proof (claim_at _ _ _ _ _ _ _ _ _ _ B PP SC O F) as C. fold ps in C. pose proof (c_mesh _ _ _ C) as M. fold ts in M.
  destruct (c_bnd _ _ _ C) as [R0 BD]. fold ts in BD. pose proof (c_fo _ _ _ C) as FO. split; intros H1 H2.
  - assert (Q : (t, i) = (u, j)) by (apply (edge_unique ps PP ts (cb_front cb) R0 M FO BD); auto; unfold pedge; cbn [fst snd]; congruence).
    injection Q; auto.
  - assert (Q : ppaired ts (t, i) (u, j)) by (apply (edge_twin ps PP ts (cb_front cb) R0 M FO BD); auto; unfold pedge, swp; cbn [fst snd]; congruence).
    destruct Q as (_ & _ & Q1 & Q2 & _). auto.
Qed.

(** ** C24, in full: when edge_event is reported for an input edge, in general position, the edge is
    an edge of the mesh and is marked on every triangle that has it. *)
Theorem C24_edge_marked_everywhere : forall PD dbg fuel src calls (b : Builder PD) r before cb after e,
  builder_of PD src calls = Done b -> let ps := c_points (build PD b) in
  proper ps -> scan_sound ps -> nocol ps -> observed dbg fuel (build PD b) = (r, before ++ cb :: after) ->
  fills_ccw ps (before ++ [cb]) -> cb_event cb = EvEdge e -> let ts := cb_tris cb in
  let is_e t i := (tv ts t (nxt i) = e_p e /\ tv ts t (prv i) = e_q e) \/ (tv ts t (nxt i) = e_q e /\ tv ts t (prv i) = e_p e) in
  (exists t i, t < length ts /\ is_e t i) /\
  (forall t i, t < length ts -> is_e t i -> tc ts t i = true).
Proof.
  intros PD dbg fuel src calls b r before cb after e B ps PP SC NC O F Ev ts is_e.
  destruct (C24_edge_in_mesh PD dbg fuel src calls b r before cb after e B PP SC NC O F Ev) as (t & i & L & T & Q & TW). fold ts in L, T, Q, TW.
  split; [exists t, i; auto|]. intros u j Lu Hu.
  pose proof (C25_edges_unique PD dbg fuel src calls b r before cb after B PP SC O F) as U. fold ps ts in U.
  assert (SAME : tv ts t (nxt i) = tv ts u (nxt j) -> tv ts t (prv i) = tv ts u (prv j) -> tc ts u j = true).
  { intros H1 H2. destruct (proj1 (U t i u j L Lu) H1 H2) as [<- <-]. exact T. }
  assert (OPP : tv ts t (nxt i) = tv ts u (prv j) -> tv ts t (prv i) = tv ts u (nxt j) -> tc ts u j = true).
  { intros H1 H2. destruct (proj2 (U t i u j L Lu) H1 H2) as [H3 H4]. destruct (TW u H3) as (j' & _ & _ & T' & V1 & V2).
    destruct (proj1 (U u j' u j Lu Lu) ltac:(congruence) ltac:(congruence)) as [_ <-]. exact T'. }
  unfold is_e in Hu. destruct Q as [[Q1 Q2]|[Q1 Q2]], Hu as [[U1 U2]|[U1 U2]]; first [apply SAME; congruence|apply OPP; congruence].
Qed.
End S.

(** Non-vacuity: the hypotheses hold at the last callback of the seven-vertex example, whose
    mesh has triangles *)
Example cover_example : exists (b : @Builder F64 unit) r before cb after, builder_of unit mesh_src [] = Done b /\
  proper (c_points (build unit b)) /\ scan_sound (c_points (build unit b)) /\ nocol (c_points (build unit b)) /\
  observed false 200 (build unit b) = (r, before ++ cb :: after) /\ fills_ccw (c_points (build unit b)) (before ++ [cb]) /\
  0 < length (cb_tris cb).
Proof.
  destruct mesh_example as (b & t & cbs & B & P & SC & NC & O & F & L & _).
  destruct (result_cb _ _ _ _ _ _ _ _ B O) as (before & cb & Q & _ & QT). exists b, (Done t), before, cb, [].
  subst cbs. repeat (split; [assumption|]).
  destruct (PropsSafe.C10_result_distinct _ _ _ _ _ _ _ _ B O) as [_ R]. destruct (tr_result t) as [|x l]; [discriminate|].
  destruct (R x (or_introl eq_refl)) as (i & _ & Li). rewrite QT. apply Nat.le_lt_trans with i; [apply Nat.le_0_l|exact Li].
Qed.
Print Assumptions C25_covered_once.
Print Assumptions C25_generic_point.
Print Assumptions C25_edges_unique.
Print Assumptions C24_edge_marked_everywhere.
