(** * PropsMesh: C18, C19, C20, C21, C23, C24 - the triangle mesh

    Vocabulary (Mesh.v, Rotate.v, Boundary.v): [tv ts t i], [tn ts t i], [tc ts t i] are the
    vertex, neighbour and constrained flag of triangle t at position i; edge i
    runs from the vertex after i to the vertex before i (in the counter-clockwise
    order of the triangle); [zc ps v] is the exact coordinate of point v.

    The theorems are about the callbacks of a run up to the first one that
    shows a freshly created triangle that is not counter-clockwise
    ([fills_ccw]).  That hypothesis is needed: see C17_returned_triangles_ccw_refuted. *)
From Coq Require Import List Arith Bool Lia ZArith Permutation Sorted.
From Verif Require Import Base Num Shape ShapeSpec Utils Points Triangles Front Sweeper Cdt F64 Lists BuilderSpec History SortSpec Monad Traverse TraceSpec Grow
  Exact F64Exact Spec PropsBuilder PropsTrace PropsSafe FrontSpec Geom Mesh Rotate Setup Legal Legalize Boundary Chain Remap Attach FrontInv Good Init PropsFront MeshStart LegalTotal.
Import ListNotations.

Section S.
Context {A : Arith} {E : Exact A}.

(** whenever a legalization starts at the newest triangle, that triangle is
    counter-clockwise; every triangle is announced in this way right after its creation *)
Definition fills_ccw (ps : Points) (cbs : list callback) : Prop :=
  forall cb t, In cb cbs -> cb_event cb = EvWillLegalize (Some t) -> S t = length (cb_tris cb) ->
  (0 < orient (zc ps (tv (cb_tris cb) t I0)) (zc ps (tv (cb_tris cb) t I1)) (zc ps (tv (cb_tris cb) t I2)))%Z.

Lemma fills_good ps cbs : fills_ccw ps cbs -> Good ps (rev cbs).
Proof.
  intro H. apply Forall_forall. intros cb IN. apply in_rev in IN. unfold good_cb.
  destruct (cb_event cb) as [| | | | |[t|]| | |] eqn:Q; auto. intro L. exact (H cb t IN Q L).
Qed.
Lemma gclaims_at ps : forall l cb l', gclaims ps (l ++ cb :: l') -> Good ps (cb :: l') -> claim ps cb l'.
Proof. induction l as [|c l IH]; intros cb l' [H1 H2] G; auto. Qed.

(** the prefix of a run that ends with callback cb *)
Lemma claim_at PD dbg fuel src calls (b : Builder PD) r before cb after :
  builder_of PD src calls = Done b -> proper (c_points (build PD b)) -> scan_sound (c_points (build PD b)) ->
  observed dbg fuel (build PD b) = (r, before ++ cb :: after) ->
  fills_ccw (c_points (build PD b)) (before ++ [cb]) -> claim (c_points (build PD b)) cb (rev before).
Proof.
  intros B PP SC O F. pose proof (run_gclaims PD dbg fuel src calls b r _ B PP SC O) as K.
  rewrite rev_app_distr in K. simpl in K. rewrite <- app_assoc in K. apply (gclaims_at _ (rev after)); auto.
  pose proof (fills_good _ _ F) as G. rewrite rev_app_distr in G. exact G.
Qed.

(** ** C18 *)
Theorem C18_mesh_stays_ccw : forall PD dbg fuel src calls (b : Builder PD) r before cb after,
  builder_of PD src calls = Done b -> let ps := c_points (build PD b) in
  proper ps -> scan_sound ps -> observed dbg fuel (build PD b) = (r, before ++ cb :: after) ->
  fills_ccw ps (before ++ [cb]) ->
  forall t, t < length (cb_tris cb) ->
    (0 < orient (zc ps (tv (cb_tris cb) t I0)) (zc ps (tv (cb_tris cb) t I1)) (zc ps (tv (cb_tris cb) t I2)))%Z.
Proof.
  intros PD dbg fuel src calls b r before cb after B ps PP SC O F t L.
  pose proof (claim_at _ _ _ _ _ _ _ _ _ _ B PP SC O F) as C. apply (m_ccw (c_mesh _ _ _ C) t L).
Qed.

Lemma result_cb PD dbg fuel src calls (b : Builder PD) t cbs : builder_of PD src calls = Done b ->
  observed dbg fuel (build PD b) = (Done t, cbs) ->
  exists before cb, cbs = before ++ [cb] /\ cb_event cb = EvFinalized /\ cb_tris cb = tr_triangles t.
Proof.
  intros B O. destruct (C11_result_is_region PD dbg fuel src calls b t cbs B O) as (pre & cbD & cbF & -> & _ & H & H' & _).
  exists (pre ++ [cbD]), cbF. rewrite <- app_assoc. auto.
Qed.

(** the triangles of the returned mesh *)
Theorem C18_result_ccw : forall PD dbg fuel src calls (b : Builder PD) t cbs,
  builder_of PD src calls = Done b -> let ps := c_points (build PD b) in
  proper ps -> scan_sound ps -> observed dbg fuel (build PD b) = (Done t, cbs) -> fills_ccw ps cbs ->
  forall x, In x (tr_result t) -> exists i, x = Some i /\
    (0 < orient (zc ps (tv (tr_triangles t) i I0)) (zc ps (tv (tr_triangles t) i I1)) (zc ps (tv (tr_triangles t) i I2)))%Z.
Proof.
  intros PD dbg fuel src calls b t cbs B ps PP SC O F x IN.
  destruct (C10_result_distinct PD dbg fuel src calls b t cbs B O) as [_ R]. destruct (R x IN) as (i & -> & L). exists i. split; auto.
  destruct (result_cb _ _ _ _ _ _ _ _ B O) as (before & cb & -> & _ & Q). rewrite <- Q in *.
  exact (C18_mesh_stays_ccw PD dbg fuel src calls b _ before cb [] B PP SC O F i L).
Qed.

(** ** C19.  Adjacency is symmetric and geometric: a neighbour across an edge lists the
    triangle back across the same edge, run through in the opposite direction; and at
    every callback outside a legalization the edges without neighbour are exactly the
    front edges and the bottom edge, each of one triangle, the front storing for each
    node the triangle below the edge to its right. *)
Theorem C19_adjacency : forall PD dbg fuel src calls (b : Builder PD) r before cb after,
  builder_of PD src calls = Done b -> let ps := c_points (build PD b) in
  proper ps -> scan_sound ps -> observed dbg fuel (build PD b) = (r, before ++ cb :: after) ->
  fills_ccw ps (before ++ [cb]) ->
  let ts := cb_tris cb in let ns := nodes (cb_front cb) in
  (forall t i, t < length ts -> tv ts t i < length (ps_points ps)) /\
  (forall t i u, t < length ts -> tn ts t i = Some u ->
     u < length ts /\ u <> t /\
     exists j, tn ts u j = Some t /\ tv ts u (nxt j) = tv ts t (prv i) /\ tv ts u (prv j) = tv ts t (nxt i)) /\
  (outer (cb_event cb) = true ->
     (forall t i, t < length ts -> tn ts t i = None ->
        (tv ts t (nxt i), tv ts t (prv i)) = (ps_head ps, ps_tail ps) \/
        exists k e e', nth_error ns k = Some e /\ nth_error ns (S k) = Some e' /\ (tv ts t (nxt i), tv ts t (prv i)) = (en_pid e', en_pid e)) /\
     (exists t i, t < length ts /\ tn ts t i = None /\ tv ts t (nxt i) = ps_head ps /\ tv ts t (prv i) = ps_tail ps) /\
     (forall k e e', nth_error ns k = Some e -> nth_error ns (S k) = Some e' -> exists t i,
        en_tri e = Some t /\ t < length ts /\ tn ts t i = None /\ tv ts t (nxt i) = en_pid e' /\ tv ts t (prv i) = en_pid e) /\
     (forall t i u j, t < length ts -> u < length ts -> tn ts t i = None -> tn ts u j = None ->
        tv ts t (nxt i) = tv ts u (nxt j) -> tv ts t (prv i) = tv ts u (prv j) -> t = u /\ i = j)).
Proof.
  intros PD dbg fuel src calls b r before cb after B ps PP SC O F ts ns.
  pose proof (claim_at _ _ _ _ _ _ _ _ _ _ B PP SC O F) as C. fold ps in C. pose proof (c_mesh _ _ _ C) as M. fold ts in M.
  split; [apply (m_range M)|]. split.
  - intros t i u L Hn. destruct (m_adj M t i u L Hn) as [j PR]. pose proof PR as (P1 & P2 & P3 & P4 & P5 & P6).
    split; [exact P2|]. split; [intros ->; exact (not_self (m_ccw M t L) (conj P5 P6))|]. exists j. auto.
  - intro OU. destruct (c_outer _ _ _ C OU) as [[B1 B2 B3 B4] _]. fold ts in B1, B2, B3, B4. fold ns in B1, B2. split; [|split; [|split]].
    + intros t i L Hn. destruct (B1 (t, i) (conj L Hn)) as [H|(e & e' & (k & H1 & H2) & H3)]; [left; exact H|right; exists k, e, e'; auto].
    + destruct B4 as ([t i] & [L Hn] & H). unfold pedge in H. injection H as H1 H2. exists t, i. auto.
    + intros k e e' H1 H2. destruct (B2 e e' (ex_intro _ k (conj H1 H2))) as ([t i] & [L Hn] & H3 & H4). unfold pedge in H3. injection H3 as H5 H6.
      exists t, i. destruct H4 as [H4|[[]|[]]]. auto.
    + intros t i u j Lt_ Lu Ht Hu E1 E2. assert (Q : (t, i) = (u, j)); [|injection Q; auto].
      apply B3; [split; auto|split; auto|]. unfold pedge. cbn [fst snd]. congruence.
Qed.

(** ** C20.  Outside legalizations every edge between two triangles that is marked on
    neither side is locally Delaunay: the vertex opposite it in the second triangle is
    not strictly inside the circumcircle of the first. *)
Theorem C20_constrained_delaunay : forall PD dbg fuel src calls (b : Builder PD) r before cb after,
  builder_of PD src calls = Done b -> let ps := c_points (build PD b) in
  proper ps -> scan_sound ps -> observed dbg fuel (build PD b) = (r, before ++ cb :: after) ->
  fills_ccw ps (before ++ [cb]) -> outer (cb_event cb) = true ->
  let ts := cb_tris cb in
  forall t i u j, t < length ts -> tn ts t i = Some u -> tn ts u j = Some t -> tc ts t i = false -> tc ts u j = false ->
    tv ts u (nxt j) = tv ts t (prv i) ->
    (incircle (zc ps (tv ts t I0)) (zc ps (tv ts t I1)) (zc ps (tv ts t I2)) (zc ps (tv ts u j)) <= 0)%Z.
Proof.
  intros PD dbg fuel src calls b r before cb after B ps PP SC O F OU ts t i u j L H1 H2 C1 C2 V1.
  pose proof (claim_at _ _ _ _ _ _ _ _ _ _ B PP SC O F) as C. fold ps in C. pose proof (c_mesh _ _ _ C) as M. fold ts in M.
  destruct (c_outer _ _ _ C OU) as [_ DB]. fold ts in DB.
  destruct (m_adj M t i u L H1) as [j' PR].
  assert (j' = j) as ->.
  { pose proof PR as (_ & Lu & _ & _ & _ & P6). rewrite P6 in V1. apply (tv_inj (m_ccw M u Lu)) in V1.
    destruct j, j'; simpl in V1; auto; congruence. }
  destruct (Z_le_gt_dec (inc (zc ps) ts (t, i) (u, j)) 0) as [G|G].
  - unfold inc in G. cbn [fst snd] in G. destruct i; cbn [nxt prv] in G; auto.
    + rewrite incircle_rot in G. exact G.
    + rewrite incircle_rot, incircle_rot in G. exact G.
  - exfalso. assert (BD : bad (zc ps) ts (t, i) (u, j)).
    { split; [exact PR|]. split; [exact C1|]. split; [exact C2|]. lia. }
    destruct (DB _ _ BD) as [[]|[]].
Qed.

(** ** C21.  What a legalization finds: a consistent mesh of counter-clockwise triangles
    in which only edges of the triangle [a] to be legalized, or of the triangles [P] whose
    turn comes later, may be illegal; only the front entries of a may be out of date. *)
Record legalizable (points : Points) (ts : TriangleStore) (af : AdvancingFront) (a : nat) (P : list nat) : Prop := {
  lg_a : a < length ts;
  lg_mesh : mesh (npts points) (zc points) ts;
  lg_flags : dflags (zc points) ts;
  lg_del : delaunay_but (zc points) (a :: P) ts;
  lg_bnd : boundary (ps_head points) (ps_tail points) ts (nodes af) [Some a] [];
  lg_front : front_ok points af
}.
(** It completes - no panic, no undefined behaviour, no endless loop - within N (N - 1) + 1 turns of its loop,
    N the number of points (the two artificial ones included), having announced at most N (N - 1) / 2
    rotations, and leaves edges of P at most illegal. *)
Theorem C21_legalization_completes : forall dbg points a P s, proper points ->
  legalizable points (s_tris s) (s_front s) a P ->
  forall fuel, npts points * npts points - npts points + 1 < fuel -> exists s', legalize dbg points fuel (Some a) s = (Done tt, s') /\
    mesh (npts points) (zc points) (s_tris s') /\ delaunay_but (zc points) P (s_tris s') /\
    boundary (ps_head points) (ps_tail points) (s_tris s') (nodes (s_front s')) [] [] /\
    length (s_tris s') = length (s_tris s) /\
    2 * rotations (s_trace s') <= 2 * rotations (s_trace s) + (npts points * npts points - npts points).
Proof.
  intros dbg points a P s PP [La M D DB BD FO] fuel HF.
  destruct (legalize_total dbg points PP fuel a s P La M D DB BD FO HF) as (s' & R & M' & _ & D' & B' & _ & _ & L' & _ & _ & RT).
  exists s'. auto 10.
Qed.
(** every legalization of a run starts like this *)
Theorem C21_in_runs : forall PD dbg fuel src calls (b : Builder PD) r before cb after a,
  builder_of PD src calls = Done b -> let ps := c_points (build PD b) in
  proper ps -> scan_sound ps -> observed dbg fuel (build PD b) = (r, before ++ cb :: after) ->
  fills_ccw ps (before ++ [cb]) -> cb_event cb = EvWillLegalize (Some a) ->
  exists P, legalizable ps (cb_tris cb) (cb_front cb) a P.
Proof.
  intros PD dbg fuel src calls b r before cb after a B ps PP SC O F Ev.
  pose proof (claim_at _ _ _ _ _ _ _ _ _ _ B PP SC O F) as C. fold ps in C.
  destruct (c_will _ _ _ C a Ev) as (L & BD & P & DB). exists P. constructor; auto; apply C.
Qed.

(** ** C23.  Legalization neither removes nor adds a mark: the marked directed edges after it
    are those before it; if marks agreed on both sides of every edge, they still do. *)
Theorem C23_legalization_keeps_constraints : forall dbg points a P s, proper points ->
  legalizable points (s_tris s) (s_front s) a P -> flags_agree (s_tris s) ->
  forall fuel, npts points * npts points - npts points + 1 < fuel -> exists s', legalize dbg points fuel (Some a) s = (Done tt, s') /\
  flags_agree (s_tris s') /\
  forall u v, (exists t i, t < length (s_tris s) /\ tc (s_tris s) t i = true /\ tv (s_tris s) t (nxt i) = u /\ tv (s_tris s) t (prv i) = v) <->
              (exists t i, t < length (s_tris s') /\ tc (s_tris s') t i = true /\ tv (s_tris s') t (nxt i) = u /\ tv (s_tris s') t (prv i) = v).
Proof.
  intros dbg points a P s PP [La M D DB BD FO] FA fuel HF.
  destruct (legalize_total dbg points PP fuel a s P La M D DB BD FO HF) as (s' & R & _ & _ & _ & _ & _ & _ & _ & _ & K & _).
  exists s'. split; [exact R|]. destruct (K FA) as (K1 & K2 & K3). split; [exact K1|].
  intros u v. split; intros (t & i & L & T & <- & <-).
  - destruct (K2 (t, i) L T) as ([t' i'] & L' & T' & Q). unfold pedge in Q. injection Q as Q1 Q2. exists t', i'. auto.
  - destruct (K3 (t, i) L T) as ([t' i'] & L' & T' & Q). unfold pedge in Q. injection Q as Q1 Q2. exists t', i'. auto.
Qed.

(** in a run in general position: an edge about to be flipped by a legalization is
    not marked on either side, and marks agree at every callback *)
Theorem C23_no_marked_edge_flipped : forall PD dbg fuel src calls (b : Builder PD) r before cb after,
  builder_of PD src calls = Done b -> let ps := c_points (build PD b) in
  proper ps -> scan_sound ps -> nocol ps -> observed dbg fuel (build PD b) = (r, before ++ cb :: after) ->
  fills_ccw ps (before ++ [cb]) -> let ts := cb_tris cb in
  (forall t i u j, t < length ts -> tn ts t i = Some u -> tn ts u j = Some t -> tv ts u (nxt j) = tv ts t (prv i) -> tc ts t i = tc ts u j) /\
  (forall x y, cb_event cb = EvRotated x y -> exists t u i j, x = Some t /\ y = Some u /\ t < length ts /\ u < length ts /\
     tn ts t i = Some u /\ tn ts u j = Some t /\ tc ts t i = false /\ tc ts u j = false).
Proof.
  intros PD dbg fuel src calls b r before cb after B ps PP SC NC O F ts.
  pose proof (claim_at _ _ _ _ _ _ _ _ _ _ B PP SC O F) as C. fold ps in C. pose proof (c_mesh _ _ _ C) as M. fold ts in M.
  pose proof (c_agree _ _ _ C NC) as FA. fold ts in FA. split.
  - intros t i u j L H1 H2 V1. destruct (m_adj M t i u L H1) as [j' PR].
    assert (j' = j) as ->; [|apply FA; exact PR].
    pose proof PR as (_ & Lu & _ & _ & _ & P6). rewrite P6 in V1. apply (tv_inj (m_ccw M u Lu)) in V1.
    destruct j, j'; simpl in V1; auto; congruence.
  - intros x y Ev. destruct (c_rot _ _ _ C x y Ev) as (t & u & i & j & -> & -> & PR & T & _). fold ts in PR, T.
    exists t, u, i, j. pose proof PR as (P1 & P2 & P3 & P4 & _). repeat (split; [solve [auto]|]). rewrite <- (FA t i u j PR). exact T.
Qed.

(** ** C24.  When edge_event is reported for an edge of the input, in general position, that
    edge is an edge of the mesh and is marked - on both sides if it has two. *)
Theorem C24_edge_in_mesh : forall PD dbg fuel src calls (b : Builder PD) r before cb after e,
  builder_of PD src calls = Done b -> let ps := c_points (build PD b) in
  proper ps -> scan_sound ps -> nocol ps -> observed dbg fuel (build PD b) = (r, before ++ cb :: after) ->
  fills_ccw ps (before ++ [cb]) -> cb_event cb = EvEdge e -> let ts := cb_tris cb in
  exists t i, t < length ts /\ tc ts t i = true /\
    ((tv ts t (nxt i) = e_p e /\ tv ts t (prv i) = e_q e) \/ (tv ts t (nxt i) = e_q e /\ tv ts t (prv i) = e_p e)) /\
    (forall u, tn ts t i = Some u -> exists j, u < length ts /\ tn ts u j = Some t /\ tc ts u j = true /\
       tv ts u (nxt j) = tv ts t (prv i) /\ tv ts u (prv j) = tv ts t (nxt i)).
Proof.
  intros PD dbg fuel src calls b r before cb after e B ps PP SC NC O F Ev ts.
  pose proof (claim_at _ _ _ _ _ _ _ _ _ _ B PP SC O F) as C. fold ps in C. pose proof (c_mesh _ _ _ C) as M. fold ts in M.
  pose proof (c_agree _ _ _ C NC) as FA. fold ts in FA.
  destruct (c_edge _ _ _ C e Ev NC) as ([t i] & L & H & T). fold ts in L, H, T. exists t, i. cbn [fst snd] in *.
  split; [exact L|]. split; [exact T|]. split.
  - unfold pedge in H. cbn [fst snd] in H. destruct H as [H|H]; injection H as H1 H2; auto.
  - intros u Hn. destruct (m_adj M t i u L Hn) as [j PR]. exists j. pose proof PR as (P1 & P2 & P3 & P4 & P5 & P6).
    split; [exact P2|]. split; [exact P4|]. split; [|auto]. rewrite <- (FA t i u j PR). exact T.
Qed.
End S.

(** ** Non-vacuity: the hypotheses hold of a polygon with seven vertices whose run flips
    edges both in legalizations and to insert constraints *)
(** the integers of [zc] are multiples of 2^1074 apart from the frame; the
    checks below divide the coordinates by 2^1010 first *)
Definition rz (p : @Point F64) : zpt := (Z.shiftr (zv (px p)) 1010, Z.shiftr (zv (py p)) 1010).
Definition redb (p : @Point F64) : bool := (Z.shiftl (fst (rz p)) 1010 =? zv (px p))%Z && (Z.shiftl (snd (rz p)) 1010 =? zv (py p))%Z.
Lemma redb_ok p : redb p = true -> zp p = ((2 ^ 1010 * fst (rz p))%Z, (2 ^ 1010 * snd (rz p))%Z).
Proof. unfold redb. rewrite andb_true_iff, !Z.eqb_eq, !Z.shiftl_mul_pow2 by lia. intros [H1 H2]. unfold zp. rewrite <- H1 at 1. rewrite <- H2 at 1. f_equal; apply Z.mul_comm. Qed.
Lemma orient_scale k a b c : orient (k * fst a, k * snd a)%Z (k * fst b, k * snd b)%Z (k * fst c, k * snd c)%Z = (k * k * orient a b c)%Z.
Proof. zpts. ring. Qed.
Lemma orient_rz a b c : redb a = true -> redb b = true -> redb c = true -> orient (zp a) (zp b) (zp c) = (2 ^ 1010 * 2 ^ 1010 * orient (rz a) (rz b) (rz c))%Z.
Proof. intros Ha Hb Hc. rewrite (redb_ok a Ha), (redb_ok b Hb), (redb_ok c Hc). generalize (2 ^ 1010)%Z. intro k. apply orient_scale. Qed.
Lemma pow_pos2 : (0 < 2 ^ 1010 * 2 ^ 1010)%Z.
Proof. apply Z.mul_pos_pos; apply Z.pow_pos_nonneg; lia. Qed.
Lemma orient_rz_sgn a b c : redb a = true -> redb b = true -> redb c = true ->
  ((orient (zp a) (zp b) (zp c) < 0 <-> orient (rz a) (rz b) (rz c) < 0) /\ (0 < orient (zp a) (zp b) (zp c) <-> 0 < orient (rz a) (rz b) (rz c)) /\
   (orient (zp a) (zp b) (zp c) = 0 <-> orient (rz a) (rz b) (rz c) = 0))%Z.
Proof.
  intros Ha Hb Hc. rewrite (orient_rz a b c Ha Hb Hc). pose proof pow_pos2 as P. revert P. generalize (2 ^ 1010 * 2 ^ 1010)%Z (orient (rz a) (rz b) (rz c)).
  intros k o P. destruct (Z.lt_trichotomy o 0) as [Q|[Q|Q]]; nia.
Qed.
Lemma pt_red ps : forallb redb (ps_points ps) = true -> forall i p, nth_error (ps_points ps) i = Some p -> redb p = true /\ zc ps i = zp p.
Proof. intros H i p Hp. rewrite forallb_forall in H. split; [apply H; eapply nth_error_In; eauto|]. unfold zc. rewrite Hp. reflexivity. Qed.
Definition nocolb (ps : @Points F64) : bool :=
  forallb redb (ps_points ps) &&
  let l := combine (seq 0 (npts ps)) (map rz (ps_points ps)) in
  forallb (fun i => forallb (fun j => forallb (fun k =>
    (fst i =? fst j) || (fst j =? fst k) || (fst i =? fst k) || negb (orient (snd i) (snd j) (snd k) =? 0)%Z) l) l) l.
Lemma in_combine_seq {T} (l : list T) i x k : nth_error l i = Some x -> In (k + i, x) (combine (seq k (length l)) l).
Proof.
  revert i k. induction l as [|y l IH]; intros [|i] k H; try discriminate; simpl in *.
  - left. injection H as <-. f_equal. lia.
  - right. replace (k + S i) with (S k + i) by lia. apply IH. exact H.
Qed.
Lemma nocolb_ok ps : nocolb ps = true -> nocol ps.
Proof.
  unfold nocolb. cbv zeta. rewrite andb_true_iff. intros [RD H]. rewrite forallb_forall in H. intros i j k Li Lj Lk N1 N2 N3 Q.
  destruct (nth_error_ex _ _ Li) as [pi Hi], (nth_error_ex _ _ Lj) as [pj Hj], (nth_error_ex _ _ Lk) as [pk Hk].
  destruct (pt_red ps RD _ _ Hi) as [Ri Zi], (pt_red ps RD _ _ Hj) as [Rj Zj], (pt_red ps RD _ _ Hk) as [Rk Zk]. rewrite Zi, Zj, Zk in Q.
  assert (G : forall i p, nth_error (ps_points ps) i = Some p -> In (i, rz p) (combine (seq 0 (npts ps)) (map rz (ps_points ps)))).
  { intros i0 p Hp. assert (X := in_combine_seq (map rz (ps_points ps)) i0 (rz p) 0 (map_nth_error rz _ _ Hp)). rewrite map_length in X. exact X. }
  specialize (H _ (G _ _ Hi)). rewrite forallb_forall in H. specialize (H _ (G _ _ Hj)). rewrite forallb_forall in H. specialize (H _ (G _ _ Hk)). cbn [fst snd] in H.
  apply (orient_rz_sgn pi pj pk Ri Rj Rk) in Q. rewrite Q in H. rewrite !orb_true_iff, !Nat.eqb_eq in H. simpl in H. intuition congruence.
Qed.
Definition scanxb (ps : @Points F64) : bool :=
  forallb redb (ps_points ps) &&
  let l := map (fun p => (p, rz p)) (ps_points ps) in
  forallb (fun a => forallb (fun b => forallb (fun c => forallb (fun d =>
    Bool.eqb (in_scan_area (fst a) (fst b) (fst c) (fst d)) ((orient (snd a) (snd d) (snd b) <? 0) && (0 <? orient (snd a) (snd d) (snd c)))%Z) l) l) l) l.
Lemma scanxb_ok ps : scanxb ps = true -> scan_exact ps.
Proof.
  unfold scanxb. cbv zeta. rewrite andb_true_iff. intros [RD H]. rewrite forallb_forall in H. intros a b c d pa pb pc pd Pa Pb Pc Pd.
  assert (G : forall i p, pt ps i = Done p -> In (p, rz p) (map (fun p => (p, rz p)) (ps_points ps)) /\ redb p = true /\ zc ps i = zp p).
  { intros i p Hp. apply FrontInv.pt_nth in Hp. split; [apply (in_map (fun p => (p, rz p))); eapply nth_error_In; eauto|]. apply (pt_red ps RD i p Hp). }
  destruct (G _ _ Pa) as (Ia & Ra & ->), (G _ _ Pb) as (Ib & Rb & ->), (G _ _ Pc) as (Ic & Rc & ->), (G _ _ Pd) as (Id & Rd & ->).
  specialize (H _ Ia). rewrite forallb_forall in H. specialize (H _ Ib). rewrite forallb_forall in H. specialize (H _ Ic). rewrite forallb_forall in H. specialize (H _ Id).
  cbn [fst snd] in H. apply eqb_prop in H. rewrite H, andb_true_iff, !Z.ltb_lt.
  pose proof (orient_rz_sgn pa pd pb Ra Rd Rb). pose proof (orient_rz_sgn pa pd pc Ra Rd Rc). tauto.
Qed.
Lemma scan_exact_sound' (ps : @Points F64) : scan_exact ps -> scan_sound ps.
Proof. intros H a b c d pa pb pc pd Pa Pb Pc Pd Q. apply (H a b c d pa pb pc pd Pa Pb Pc Pd). exact Q. Qed.
Definition goodb (ps : @Points F64) (cb : @callback F64) : bool :=
  match cb_event cb with
  | EvWillLegalize (Some t) => negb (S t =? length (cb_tris cb)) ||
      (0 <? orient (zc ps (tv (cb_tris cb) t I0)) (zc ps (tv (cb_tris cb) t I1)) (zc ps (tv (cb_tris cb) t I2)))%Z
  | _ => true
  end.
Lemma goodb_ok ps cbs : forallb (goodb ps) cbs = true -> fills_ccw ps cbs.
Proof.
  rewrite forallb_forall. intros H cb t IN Ev L. specialize (H cb IN). unfold goodb in H. rewrite Ev, L, Nat.eqb_refl in H. apply Z.ltb_lt. exact H.
Qed.

Definition mesh_src : @source F64 unit := unit_src [(19,19);(7,2);(13,3);(2,1);(4,13);(12,15);(0,18)]%Z.
Definition is_rotated (cb : @callback F64) : bool := match cb_event cb with EvRotated _ _ => true | _ => false end.
Lemma mesh_src_plane : match builder_of unit mesh_src [] with
    | Done b => let ps := c_points (build unit b) in properb ps && scanxb ps && nocolb ps | _ => false end = true.
Proof. vm_compute. reflexivity. Qed.
Example mesh_example : exists (b : @Builder F64 unit) t cbs, builder_of unit mesh_src [] = Done b /\
  proper (c_points (build unit b)) /\ scan_sound (c_points (build unit b)) /\ nocol (c_points (build unit b)) /\
  observed false 200 (build unit b) = (Done t, cbs) /\ fills_ccw (c_points (build unit b)) cbs /\
  length (tr_result t) = 5 /\ length (filter is_rotated cbs) = 3.
Proof.
  assert (R : match builder_of unit mesh_src [] with
    | Done b => let ps := c_points (build unit b) in
        match observed false 200 (build unit b) with
        | (Done t, cbs) => forallb (goodb ps) cbs && (length (tr_result t) =? 5) && (length (filter is_rotated cbs) =? 3)
        | _ => false end
    | _ => false end = true) by (vm_compute; reflexivity).
  pose proof mesh_src_plane as R0.
  destruct (builder_of unit mesh_src []) as [b| | |]; try discriminate. cbv zeta in R, R0.
  destruct (observed false 200 (build unit b)) as [[t| | |] cbs] eqn:O; try discriminate.
  rewrite !andb_true_iff, ?Nat.eqb_eq in R, R0. destruct R0 as ((R1 & R2) & R3). destruct R as ((R4 & R5) & R6). apply Nat.eqb_eq in R5, R6.
  exists b, t, cbs. split; [reflexivity|]. split; [apply properb_ok; auto|]. split; [apply scan_exact_sound', scanxb_ok; auto|]. split; [apply nocolb_ok; auto|].
  split; [exact O|]. split; [apply goodb_ok; auto|]. auto.
Qed.
Print Assumptions C18_mesh_stays_ccw.
Print Assumptions C18_result_ccw.
Print Assumptions C19_adjacency.
Print Assumptions C20_constrained_delaunay.
Print Assumptions C21_legalization_completes.
Print Assumptions C21_in_runs.
Print Assumptions C23_legalization_keeps_constraints.
Print Assumptions C23_no_marked_edge_flipped.
Print Assumptions C24_edge_in_mesh.
