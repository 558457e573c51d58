(** * PropsFlip: C38, C39 - what one flip does

    Vocabulary as in PropsMesh.v: [tv ts t i], [tn ts t i], [tc ts t i] are vertex,
    neighbour and constrained flag of triangle t at position i; edge i of t runs from the
    vertex at [nxt i] to the one at [prv i]. *)
From Coq Require Import List Arith Bool Lia ZArith.
From Verif Require Import Base Num Shape ShapeSpec Utils Points Triangles Front Sweeper Cdt F64 Lists BuilderSpec History Monad Traverse TraceSpec Grow
  Exact F64Exact Spec PropsBuilder PropsTrace FrontSpec Geom Mesh Rotate Setup Legal Legalize Good Init PropsFront PropsMesh.
Import ListNotations.

(** ** C38.  [a] and [b] share the edge x-y; p and q are the vertices opposite it.  If the
    quadrilateral p x q y is strictly convex, rotating succeeds and changes nothing but the
    triangle store, in which
    - a becomes (y, p, q) and b becomes (x, q, p), neighbours of each other across p-q;
    - the four outer edges y-p, q-y, p-x, x-q keep their neighbours and their flags;
    - every other triangle keeps its vertices and flags, and its neighbours except that the
      triangle across p-x now points to b and the one across q-y now points to a. *)
Theorem C38_rotation : forall {A : Arith} dbg N zc (s : Sweeper) a i b j,
  let ts := s_tris s in
  mesh N zc ts -> flags_agree ts ->
  a < length ts -> b < length ts -> tn ts a i = Some b -> tn ts b j = Some a ->
  tv ts a (nxt i) = tv ts b (prv j) -> tv ts a (prv i) = tv ts b (nxt j) ->
  let p := tv ts a i in let x := tv ts a (nxt i) in let y := tv ts a (prv i) in let q := tv ts b j in
  (0 < orient (zc y) (zc p) (zc q))%Z -> (0 < orient (zc x) (zc q) (zc p))%Z ->
  exists need ts', rotate_triangle_pair dbg (Some a) p (Some b) q s = (Done need, mkSw ts' (s_front s) (s_result s) (s_trace s)) /\
    mesh N zc ts' /\ length ts' = length ts /\
    (tv ts' a i = y /\ tv ts' a (nxt i) = p /\ tv ts' a (prv i) = q) /\
    (tv ts' b j = x /\ tv ts' b (nxt j) = q /\ tv ts' b (prv j) = p) /\
    (tn ts' a i = Some b /\ tn ts' b j = Some a) /\
    (tn ts' a (prv i) = tn ts a (nxt i) /\ tc ts' a (prv i) = tc ts a (nxt i)) /\
    (tn ts' a (nxt i) = tn ts b (prv j) /\ tc ts' a (nxt i) = tc ts b (prv j)) /\
    (tn ts' b (nxt j) = tn ts a (prv i) /\ tc ts' b (nxt j) = tc ts a (prv i)) /\
    (tn ts' b (prv j) = tn ts b (nxt j) /\ tc ts' b (prv j) = tc ts b (nxt j)) /\
    (forall c k, c < length ts -> c <> a -> c <> b ->
       tv ts' c k = tv ts c k /\ tc ts' c k = tc ts c k /\
       (tn ts c k = Some a -> tn ts' c k = Some (if Nat.eq_dec (tv ts c (nxt k)) x then b else a)) /\
       (tn ts c k = Some b -> tn ts' c k = Some (if Nat.eq_dec (tv ts c (nxt k)) y then a else b)) /\
       (tn ts c k <> Some a -> tn ts c k <> Some b -> tn ts' c k = tn ts c k)).
Proof.
  intros A dbg N zc s a i b j ts M FA La Lb N1 N2 V1 V2 p x y q CX1 CX2.
  assert (PR : paired ts a i b j) by (repeat split; auto).
  destruct (has_side N zc ts a (prv i) M La) as [o1 S1]. destruct (has_side N zc ts a (nxt i) M La) as [o2 S2].
  destruct (has_side N zc ts b (prv j) M Lb) as [o3 S3]. destruct (has_side N zc ts b (nxt j) M Lb) as [o4 S4].
  pose proof (rotate_ok N zc ts a i b j M PR CX1 CX2 o1 o2 o3 o4 S1 S2 S3 S4 dbg s eq_refl) as RO.
  pose proof (flip_is_flip N zc ts a i b j o1 o2 o3 o4 M PR CX1 CX2 S1 S2 S3 S4) as F.
  set (ts' := flipped ts a i b j o1 o2 o3 o4) in *. eexists; exists ts'. split; [exact RO|]. clear RO.
  assert (NE : a <> b) by exact (fs_ne _ _ _ _ _ _ _ _ _ _ F).
  assert (LL : length ts' = length ts) by exact (fs_len _ _ _ _ _ _ _ _ _ _ F).
  destruct (fs_agree _ _ _ _ _ _ _ _ _ _ F FA) as [FA' TC].
  pose proof (nxt_prv_neq i) as Xi. pose proof (nxt_prv_neq j) as Xj.
  assert (Qi : nxt i <> i /\ prv i <> i) by (destruct i; split; discriminate). assert (Qj : nxt j <> j /\ prv j <> j) by (destruct j; split; discriminate).
  assert (D1 : ~ diag a i b j (a, prv i)) by (intros [Q|Q]; injection Q; intuition congruence).
  assert (D2 : ~ diag a i b j (a, nxt i)) by (intros [Q|Q]; injection Q; intuition congruence).
  assert (D3 : ~ diag a i b j (b, prv j)) by (intros [Q|Q]; injection Q; intuition congruence).
  assert (D4 : ~ diag a i b j (b, nxt j)) by (intros [Q|Q]; injection Q; intuition congruence).
  assert (E1 : src a i b j (a, prv i) = (a, nxt i)) by apply src_ap. assert (E2 : src a i b j (a, nxt i) = (b, prv j)) by apply src_an.
  assert (E3 : src a i b j (b, nxt j) = (a, prv i)) by (eapply src_bn; eauto). assert (E4 : src a i b j (b, prv j) = (b, nxt j)) by (eapply src_bp; eauto).
  (* what lies across an outer edge is neither a nor b *)
  assert (OUT : forall P, fst P = a \/ fst P = b -> ~ diag a i b j P -> forall c k, ppaired ts P (c, k) -> c <> a /\ c <> b).
  { intros [t l] HT HD c k PC. unfold ppaired in PC. cbn [fst snd] in *. pose proof PC as (Lt_ & Lc & T1 & T2 & O).
    assert (SELF : c <> t) by (intros ->; exact (not_self (m_ccw M t Lt_) O)).
    split; intro; subst c; destruct HT; subst t; try congruence.
    - destruct (opposed_once (m_ccw M b Lb) (m_ccw M a La) (conj (Logic.eq_sym V2) (Logic.eq_sym V1)) O) as [-> ->]. apply HD. right. reflexivity.
    - destruct (opposed_once (m_ccw M a La) (m_ccw M b Lb) (conj V1 V2) O) as [-> ->]. apply HD. left. reflexivity. }
  (* positions keep what is across them *)
  assert (KEEP : forall P R, src a i b j P = R -> ~ diag a i b j P -> ~ diag a i b j R -> fst P < length ts -> fst R < length ts -> fst R = a \/ fst R = b ->
            ptn ts' P = ptn ts R).
  { intros P R ER HP HR LP LR HAB. destruct (ptn ts R) as [c|] eqn:Q.
    - destruct (m_adj M (fst R) (snd R) c LR Q) as [k PK]. destruct (OUT R HAB HR c k PK) as [Oa Ob].
      assert (SK : src a i b j (c, k) = (c, k)) by (apply src_out; auto).
      assert (DK : ~ diag a i b j (c, k)) by (intros [Z|Z]; injection Z; intuition congruence).
      assert (X : ppaired ts' P (c, k)) by (apply (fs_spec _ _ _ _ _ _ _ _ _ _ F); auto; rewrite ER, SK; exact PK).
      destruct X as (_ & _ & X & _). exact X.
    - rewrite <- ER in Q. apply (fs_bnd _ _ _ _ _ _ _ _ _ _ F); auto. }
  split; [exact (fs_mesh _ _ _ _ _ _ _ _ _ _ F)|]. split; [exact LL|]. split; [exact (fs_a _ _ _ _ _ _ _ _ _ _ F)|]. split; [exact (fs_b _ _ _ _ _ _ _ _ _ _ F)|].
  split; [destruct (fs_diag _ _ _ _ _ _ _ _ _ _ F) as (_ & _ & X & Y & _); auto|].
  split; [split; [exact (KEEP _ _ E1 D1 D2 La La (or_introl eq_refl))|pose proof (TC _ D1 La) as X; rewrite E1 in X; exact X]|].
  split; [split; [exact (KEEP _ _ E2 D2 D3 La Lb (or_intror eq_refl))|pose proof (TC _ D2 La) as X; rewrite E2 in X; exact X]|].
  split; [split; [exact (KEEP _ _ E3 D4 D1 Lb La (or_introl eq_refl))|pose proof (TC _ D4 Lb) as X; rewrite E3 in X; exact X]|].
  split; [split; [exact (KEEP _ _ E4 D3 D4 Lb Lb (or_intror eq_refl))|pose proof (TC _ D3 Lb) as X; rewrite E4 in X; exact X]|].
  intros c k Lc Ca Cb.
  assert (SK : src a i b j (c, k) = (c, k)) by (apply src_out; auto).
  assert (DK : ~ diag a i b j (c, k)) by (intros [Z|Z]; injection Z; intuition congruence).
  split; [exact (fs_out _ _ _ _ _ _ _ _ _ _ F c k Ca Cb)|]. split; [pose proof (TC _ DK Lc) as X; rewrite SK in X; exact X|].
  (* c, k is across position R of the old mesh, which is position P of the new one *)
  assert (GO : forall P R, src a i b j P = R -> ~ diag a i b j P -> ppaired ts (c, k) R -> tn ts' c k = Some (fst P)).
  { intros P R ER HP HR. assert (X : ppaired ts' (c, k) P) by (apply (fs_spec _ _ _ _ _ _ _ _ _ _ F); auto; rewrite ER, SK; exact HR).
    destruct X as (_ & _ & X & _). exact X. }
  assert (DA : tv ts a (nxt i) <> tv ts a i /\ tv ts a (prv i) <> tv ts a (nxt i)).
  { split; intro Q; apply (tv_inj (m_ccw M a La)) in Q; destruct i; discriminate. }
  assert (DB : tv ts b (nxt j) <> tv ts b j /\ tv ts b (prv j) <> tv ts b (nxt j)).
  { split; intro Q; apply (tv_inj (m_ccw M b Lb)) in Q; destruct j; discriminate. }
  split; [|split].
  - intro Q. destruct (m_adj M c k a Lc Q) as [l PL]. pose proof PL as (_ & _ & T1 & T2 & O1 & O2).
    destruct (ix_cases i l) as [->|[->| ->]].
    + congruence.
    + rewrite (GO (a, prv i) (a, nxt i) E1 D1 PL). rewrite prv_nxt in O1. destruct (Nat.eq_dec (tv ts c (nxt k)) x) as [Z|Z]; [|reflexivity].
      exfalso. apply (proj1 DA). unfold x in Z. congruence.
    + rewrite (GO (b, nxt j) (a, prv i) E3 D4 PL). rewrite prv_prv in O1. destruct (Nat.eq_dec (tv ts c (nxt k)) x) as [Z|Z]; [reflexivity|].
      exfalso. apply Z. exact O1.
  - intro Q. destruct (m_adj M c k b Lc Q) as [l PL]. pose proof PL as (_ & _ & T1 & T2 & O1 & O2).
    destruct (ix_cases j l) as [->|[->| ->]].
    + congruence.
    + rewrite (GO (b, prv j) (b, nxt j) E4 D3 PL). rewrite prv_nxt in O1. destruct (Nat.eq_dec (tv ts c (nxt k)) y) as [Z|Z]; [|reflexivity].
      exfalso. apply (proj1 DB). unfold y in Z. congruence.
    + rewrite (GO (a, nxt i) (b, prv j) E2 D2 PL). rewrite prv_prv in O1. destruct (Nat.eq_dec (tv ts c (nxt k)) y) as [Z|Z]; [reflexivity|].
      exfalso. apply Z. unfold y. congruence.
  - intros Q1 Q2. destruct (tn ts c k) as [d|] eqn:Q.
    + destruct (m_adj M c k d Lc Q) as [l PL]. assert (d <> a /\ d <> b) as [Da Db] by (split; congruence).
      assert (SL : src a i b j (d, l) = (d, l)) by (apply src_out; auto).
      assert (DL : ~ diag a i b j (d, l)) by (intros [Z|Z]; injection Z; intuition congruence).
      exact (GO (d, l) (d, l) SL DL PL).
    + pose proof (fs_bnd _ _ _ _ _ _ _ _ _ _ F (c, k) DK Lc) as X. rewrite SK in X. apply X. exact Q.
Qed.

(** ** C39.  Two counter-clockwise triangles p x y and q y x on both sides of x-y.  If the
    in-circle test is positive, the quadrilateral p x q y is strictly convex and the other
    diagonal is locally Delaunay (strictly). *)
Theorem C39_incircle_convex : forall p x y q : zpt,
  (0 < orient p x y)%Z -> (0 < orient q y x)%Z -> (0 < incircle p x y q)%Z ->
  (0 < orient p x q)%Z /\ (0 < orient x q y)%Z /\ (0 < orient q y p)%Z /\ (0 < orient y p x)%Z /\
  (incircle y p q x < 0)%Z /\ (incircle x q p y < 0)%Z.
Proof.
  intros p x y q H1 H2 H3. destruct (incircle_convex p x y q H1 H2 H3) as [C1 C2].
  pose proof (incircle_flip p x y q) as F. pose proof (incircle_across y p q x) as G.
  pose proof (orient_rot p x y) as R1. pose proof (orient_rot q y x) as R2. pose proof (orient_rot y x q) as R3.
  pose proof (orient_rot p q y) as R4. pose proof (orient_rot q p x) as R5.
  pose proof (orient_rot x y p) as R6. pose proof (orient_rot q y p) as R7.
  repeat split; try lia.
Qed.

(** Every flip of a legalization in a run is of that kind: at the callback before it the two
    triangles form a strictly convex quadrilateral, and the mesh shown by the next callback is
    the one with the other diagonal; the sum over all triangles of doubled area times the
    squared norms of the vertices goes down. *)
Section S.
Context {A : Arith} {E : Exact A}.
Definition weight (ps : Points) (ts : TriangleStore) : Z :=
  fold_right Z.add 0%Z (map (fun t => let n v := (fst (zc ps (tv ts t v)) ^ 2 + snd (zc ps (tv ts t v)) ^ 2)%Z in
     (orient (zc ps (tv ts t I0)) (zc ps (tv ts t I1)) (zc ps (tv ts t I2)) * (n I0 + n I1 + n I2))%Z) (seq 0 (length ts))).
Lemma weight_potential ps ts : weight ps ts = potential (zc ps) ts.
Proof.
  unfold weight, potential. set (f := fun t : nat => _).
  assert (Q : forall n, f n = tphi (zc ps) ts n).
  { intro n. unfold f, tphi, phi, norm2. destruct (zc ps (tv ts n I0)), (zc ps (tv ts n I1)), (zc ps (tv ts n I2)). cbn [fst snd]. ring. }
  assert (G : forall l z, fold_right Z.add z l = (fold_right Z.add 0 l + z)%Z).
  { induction l as [|w l IH]; intro z; cbn [fold_right]; [lia|]. rewrite IH. lia. }
  induction (length ts) as [|n IH]; [reflexivity|]. rewrite seq_S, map_app, fold_right_app, G, IH. cbn [map fold_right zsum].
  rewrite Nat.add_0_l, Q. lia.
Qed.
Theorem C39_flips_of_a_run : forall PD dbg fuel src calls (b : Builder PD) r before cb cb' after x y z,
  builder_of PD src calls = Done b -> let ps := c_points (build PD b) in
  proper ps -> scan_sound ps -> observed dbg fuel (build PD b) = (r, before ++ cb :: cb' :: after) ->
  fills_ccw ps (before ++ [cb; cb']) -> cb_event cb = EvRotated x y -> cb_event cb' = EvLegalizeStep z ->
  let ts := cb_tris cb in let ts' := cb_tris cb' in let P v := zc ps v in
  exists t u i j, x = Some t /\ y = Some u /\ t < length ts /\ u < length ts /\
    tn ts t i = Some u /\ tn ts u j = Some t /\ tv ts t (nxt i) = tv ts u (prv j) /\ tv ts t (prv i) = tv ts u (nxt j) /\
    tc ts t i = false /\
    let p := tv ts t i in let a := tv ts t (nxt i) in let c := tv ts t (prv i) in let q := tv ts u j in
    (0 < orient (P p) (P a) (P q))%Z /\ (0 < orient (P a) (P q) (P c))%Z /\ (0 < orient (P q) (P c) (P p))%Z /\ (0 < orient (P c) (P p) (P a))%Z /\
    tv ts' t i = c /\ tv ts' t (nxt i) = p /\ tv ts' t (prv i) = q /\
    tv ts' u j = a /\ tv ts' u (nxt j) = q /\ tv ts' u (prv j) = p /\
    (incircle (P c) (P p) (P q) (P a) < 0)%Z /\
    (weight ps ts' < weight ps ts)%Z.
Proof.
  intros PD dbg fuel src calls b r before cb cb' after x y z B ps PP SC O F Ev Ev' ts ts' P.
  assert (F' : fills_ccw ps (before ++ [cb])).
  { intros c t IN. apply F. apply in_app_iff in IN. apply in_app_iff. simpl in *. tauto. }
  pose proof (claim_at _ _ _ _ _ _ _ _ _ _ B PP SC O F') as C. fold ps in C.
  assert (O' : observed dbg fuel (build PD b) = (r, (before ++ [cb]) ++ cb' :: after)) by (rewrite <- app_assoc; exact O).
  assert (F2 : fills_ccw ps ((before ++ [cb]) ++ [cb'])) by (rewrite <- app_assoc; exact F).
  pose proof (claim_at _ _ _ _ _ _ _ _ _ _ B PP SC O' F2) as C'. fold ps in C'.
  assert (DU : during (cb_event cb') = true) by (rewrite Ev'; reflexivity).
  destruct (c_step _ _ _ C' DU) as (prev & l' & EL & ST). rewrite rev_app_distr in EL. cbn [rev app] in EL. injection EL as <- _.
  destruct ST as [(t & u & i & j & need & Ev2 & FS)|[NR _]]; [|exfalso; exact (NR x y Ev)].
  rewrite Ev in Ev2. injection Ev2 as -> ->. fold ts ts' in FS.
  pose proof (fs_paired _ _ _ _ _ _ _ _ _ _ FS) as PR. pose proof PR as (Lt_ & Lu & N1 & N2 & V1 & V2).
  destruct (c_rot _ _ _ C _ _ Ev) as (t' & u' & i' & j' & Q1 & Q2 & PR' & T & INC). injection Q1 as <-. injection Q2 as <-. fold ts in PR', T, INC.
  pose proof (c_mesh _ _ _ C) as M. fold ts in M.
  destruct (opposed_once (m_ccw M t Lt_) (m_ccw M u Lu) (conj V1 V2) (proj2 (proj2 (proj2 (proj2 PR'))))) as [-> ->].
  exists t, u, i, j. repeat (split; [solve [auto]|]). intros p a c q.
  assert (H1 : (0 < orient (P p) (P a) (P c))%Z) by exact (proj1 (tccw_at (zc := zc ps) (ts := ts) (a := t) i) (m_ccw M t Lt_)).
  assert (H2 : (0 < orient (P q) (P c) (P a))%Z).
  { pose proof (proj1 (tccw_at (zc := zc ps) (ts := ts) (a := u) j) (m_ccw M u Lu)) as H. unfold ccw3 in H. unfold q, c, a, P. rewrite V1, V2. exact H. }
  destruct (C39_incircle_convex (P p) (P a) (P c) (P q) H1 H2 INC) as (K1 & K2 & K3 & K4 & K5 & _).
  destruct (fs_a _ _ _ _ _ _ _ _ _ _ FS) as (A1 & A2 & A3). destruct (fs_b _ _ _ _ _ _ _ _ _ _ FS) as (B1 & B2 & B3).
  repeat (split; [solve [auto]|]). rewrite !weight_potential. rewrite (flip_potential _ _ _ _ _ _ _ _ _ _ FS). unfold ts in *. lia.
Qed.
End S.

(** the run of [mesh_example] makes such flips: the hypotheses of C39_flips_of_a_run hold, and
    hence - at the first of the two callbacks - those of C38 *)
Fixpoint first_flip (l : list (@callback F64)) : option (list callback * callback * callback * list callback) :=
  match l with
  | cb :: ((cb' :: l') as r) =>
      match cb_event cb, cb_event cb' with
      | EvRotated _ _, EvLegalizeStep _ => Some ([], cb, cb', l')
      | _, _ => match first_flip r with Some (b, x, y, a) => Some (cb :: b, x, y, a) | None => None end
      end
  | _ => None
  end.
Lemma first_flip_ok : forall l b x y a, first_flip l = Some (b, x, y, a) ->
  l = b ++ x :: y :: a /\ (exists u v, cb_event x = EvRotated u v) /\ (exists u, cb_event y = EvLegalizeStep u).
Proof.
  induction l as [|cb l IH]; intros b x y a H; [discriminate|]. destruct l as [|cb' l']; [discriminate|].
  assert (G : match first_flip (cb' :: l') with Some (b, x, y, a) => Some (cb :: b, x, y, a) | None => None end = Some (b, x, y, a) ->
    cb :: cb' :: l' = b ++ x :: y :: a /\ (exists u v, cb_event x = EvRotated u v) /\ (exists u, cb_event y = EvLegalizeStep u)).
  { intro Q. destruct (first_flip (cb' :: l')) as [[[[b' x'] y'] a']|]; [|discriminate]. injection Q as <- <- <- <-.
    destruct (IH _ _ _ _ eq_refl) as (-> & K). split; auto. }
  change (match cb_event cb, cb_event cb' with
      | EvRotated _ _, EvLegalizeStep _ => Some ([], cb, cb', l')
      | _, _ => match first_flip (cb' :: l') with Some (b, x, y, a) => Some (cb :: b, x, y, a) | None => None end
      end = Some (b, x, y, a)) in H.
  destruct (cb_event cb) eqn:E1; auto. destruct (cb_event cb') eqn:E2; auto. injection H as <- <- <- <-. split; auto. split; eauto.
Qed.
Example flip_example : exists (b : @Builder F64 unit) t before cb cb' after x y z, builder_of unit mesh_src [] = Done b /\
  let ps := c_points (build unit b) in proper ps /\ scan_sound ps /\
  observed false 200 (build unit b) = (Done t, before ++ cb :: cb' :: after) /\ fills_ccw ps (before ++ [cb; cb']) /\
  cb_event cb = EvRotated x y /\ cb_event cb' = EvLegalizeStep z /\ mesh (npts ps) (zc ps) (cb_tris cb) /\ flags_agree (cb_tris cb).
Proof.
  assert (R : match builder_of unit mesh_src [] with
    | Done b => let ps := c_points (build unit b) in
        properb ps && nocolb ps &&
        match observed false 200 (build unit b) with
        | (Done t, cbs) => forallb (goodb ps) cbs && match first_flip cbs with Some _ => true | None => false end
        | _ => false end
    | _ => false end = true) by (vm_compute; reflexivity).
  destruct (builder_of unit mesh_src []) as [b| | |] eqn:B; try discriminate. cbv zeta in R.
  destruct (observed false 200 (build unit b)) as [[t| | |] cbs] eqn:O; try (rewrite andb_false_r in R; discriminate).
  rewrite !andb_true_iff in R. destruct R as ((R1 & R3) & (R4 & R5)).
  pose proof mesh_src_plane as R2. rewrite B in R2. cbv zeta in R2. rewrite !andb_true_iff in R2. destruct R2 as ((_ & R2) & _).
  destruct (first_flip cbs) as [[[[before cb] cb'] after]|] eqn:FF; [|discriminate].
  destruct (first_flip_ok _ _ _ _ _ FF) as (-> & (x & y & Ex) & (z & Ez)).
  apply properb_ok in R1. apply scanxb_ok, scan_exact_sound' in R2. apply nocolb_ok in R3. apply goodb_ok in R4.
  assert (F : fills_ccw (c_points (build unit b)) (before ++ [cb])).
  { intros c u IN. apply R4. apply in_app_iff in IN. apply in_app_iff. simpl in *. tauto. }
  pose proof (claim_at _ _ _ _ _ _ _ _ _ _ B R1 R2 O F) as C.
  exists b, t, before, cb, cb', after, x, y, z. split; [reflexivity|]. cbv zeta. split; [exact R1|]. split; [exact R2|]. split; [exact O|]. split.
  - intros c u IN. apply R4. apply in_app_iff in IN. apply in_app_iff. simpl in *. tauto.
  - split; [exact Ex|]. split; [exact Ez|]. split; [exact (c_mesh _ _ _ C)|exact (c_agree _ _ _ C R3)].
Qed.
Print Assumptions C38_rotation.
Print Assumptions C39_incircle_convex.
Print Assumptions C39_flips_of_a_run.
