(** * Good: the state of the mesh as long as every filled triangle was
    counter-clockwise when it was created *)
From Coq Require Import List Arith Bool Lia ZArith.
From Verif Require Import Base Num Shape ShapeSpec Utils Points Triangles Front Sweeper Cdt Lists Monad Traverse TraceSpec Grow Exact
  FrontSpec Geom Mesh Rotate Setup Legal Legalize Boundary Chain Remap Attach FrontInv Winding Cover CoverRun Lawson Disc Cone.
Import ListNotations.

(** callbacks made during a legalization, after its first one *)
Definition during (e : event) : bool :=
  match e with EvLegalizeStep _ | EvRotated _ _ | EvLegalized _ => true | _ => false end.

(** some triangle has the edge u-v (in either direction), marked constrained *)
Definition marked_edge (ts : TriangleStore) (u v : nat) : Prop :=
  exists P, fst P < length ts /\ (pedge ts P = (u, v) \/ pedge ts P = (v, u)) /\ ptc ts P = true.
(** every marked edge of [ts] is a marked edge of [ts'] (with the same direction) *)
Definition keeps (ts ts' : TriangleStore) : Prop :=
  forall P, fst P < length ts -> ptc ts P = true -> exists P', fst P' < length ts' /\ ptc ts' P' = true /\ pedge ts' P' = pedge ts P.
Lemma keeps_refl ts : keeps ts ts. Proof. intros P H1 H2. eauto. Qed.
Lemma keeps_trans a b c : keeps a b -> keeps b c -> keeps a c.
Proof. intros H K P H1 H2. destruct (H P H1 H2) as (P' & A1 & A2 & A3). destruct (K P' A1 A2) as (P'' & B1 & B2 & B3). exists P''. repeat split; auto. congruence. Qed.
Lemma keeps_edge ts ts' u v : keeps ts ts' -> marked_edge ts u v -> marked_edge ts' u v.
Proof. intros K (P & H1 & H2 & H3). destruct (K P H1 H3) as (P' & A1 & A2 & A3). exists P'. rewrite A3. auto. Qed.

Lemma flip_keeps N zc ts a i b j need del ts' : mesh N zc ts -> flipspec N zc ts a i b j need del ts' -> flags_agree ts -> tc ts a i = false -> keeps ts ts'.
Proof.
  intros M F FA C P LP TP. pose proof (fs_paired _ _ _ _ _ _ _ _ _ _ F) as PR.
  assert (DP : ~ diag a i b j P).
  { intros [->| ->]; unfold ptc in TP; cbn [fst snd] in TP; [congruence|]. rewrite <- (FA a i b j PR) in TP. congruence. }
  destruct (src_dst N zc ts a i b j M PR P DP) as (P' & DP' & <-).
  assert (LP' : fst P' < length ts).
  { destruct (Nat.eq_dec (fst P') a) as [->|Na]; [apply PR|]. destruct (Nat.eq_dec (fst P') b) as [->|Nb]; [apply PR|].
    rewrite (src_out a i b j P' Na Nb) in LP. auto. }
  exists P'. pose proof (fs_len _ _ _ _ _ _ _ _ _ _ F) as LL. split; [unfold TriangleStore in *; lia|].
  split; [rewrite (proj2 (fs_agree _ _ _ _ _ _ _ _ _ _ F FA)); auto|].
  destruct (fs_edge _ _ _ _ _ _ _ _ _ _ F P' DP') as [E1 E2]. unfold pedge. rewrite E1, E2. reflexivity.
Qed.
Lemma flip_keeps_back N zc ts a i b j need del ts' : mesh N zc ts -> flipspec N zc ts a i b j need del ts' -> flags_agree ts -> tc ts a i = false -> keeps ts' ts.
Proof.
  intros M F FA C P LP TP. pose proof (fs_paired _ _ _ _ _ _ _ _ _ _ F) as PR. pose proof (fs_len _ _ _ _ _ _ _ _ _ _ F) as LL.
  assert (LP' : fst P < length ts) by (unfold TriangleStore in *; lia).
  assert (DP : ~ diag a i b j P).
  { destruct (fs_tcd _ _ _ _ _ _ _ _ _ _ F) as [T1 T2]. unfold ptc in T1, T2. cbn [fst snd] in T1, T2.
    assert (tc ts b j = false) as Cb by (rewrite <- (FA a i b j PR); exact C). rewrite C, Cb in T1, T2. cbn [orb] in T1, T2.
    intros [->| ->]; unfold ptc in TP; cbn [fst snd] in TP; congruence. }
  exists (src a i b j P). split; [|split].
  - unfold src. repeat destruct (pos_dec _ _); cbn [fst]; auto; apply PR.
  - rewrite <- (proj2 (fs_agree _ _ _ _ _ _ _ _ _ _ F FA)); auto.
  - destruct (fs_edge _ _ _ _ _ _ _ _ _ _ F P DP) as [E1 E2]. unfold pedge. rewrite E1, E2. reflexivity.
Qed.

(** the marked edges are those of the list, in either direction *)
Definition marks_are (L : list Edge) (ts : TriangleStore) : Prop :=
  forall u v, marked_edge ts u v <-> exists e, In e L /\ ((u, v) = (e_p e, e_q e) \/ (v, u) = (e_p e, e_q e)).
Definition same_marks (ts ts' : TriangleStore) : Prop := forall u v, marked_edge ts u v <-> marked_edge ts' u v.
Lemma same_marks_refl ts : same_marks ts ts. Proof. intros u v. tauto. Qed.
Lemma same_marks_trans a b c : same_marks a b -> same_marks b c -> same_marks a c.
Proof. intros H K u v. rewrite (H u v). apply K. Qed.
Lemma keeps_same ts ts' : keeps ts ts' -> keeps ts' ts -> same_marks ts ts'.
Proof. intros H K u v. split; apply keeps_edge; auto. Qed.
Lemma marks_same L ts ts' : same_marks ts ts' -> marks_are L ts -> marks_are L ts'.
Proof. intros H M u v. rewrite <- (H u v). apply M. Qed.
Lemma at_marks N zc ts x y z l : mesh N zc ts -> ccw3 zc x y z -> x < N /\ y < N /\ z < N -> linkable (S (length ts)) l ->
  (forall X Y, In (X, Y) l -> opposed (ts ++ [tri_new x y z]) (fst X) (snd X) (fst Y) (snd Y) /\
    ((fst X = length ts /\ bpos ts Y) \/ (bpos ts X /\ fst Y = length ts))) -> same_marks ts (links (ts ++ [tri_new x y z]) l).
Proof.
  intros M CC RG HL HO u v. pose proof (at_len N zc ts x y z l M CC RG HL HO) as LL. split.
  - intros (P & L & EP & T). exists P. split; [unfold TriangleStore in *; lia|].
    rewrite (at_pedge N zc ts x y z l M CC RG HL HO P L), (at_tc N zc ts x y z l M CC RG HL HO P L). auto.
  - intros (P & L & EP & T). assert (L' : fst P < S (length ts)) by (unfold TriangleStore in *; lia). destruct (Nat.eq_dec (fst P) (length ts)) as [Q|Q].
    + destruct (at_marked N zc ts x y z l M CC RG HL HO P Q T) as (Q' & LQ & TQ & PQ). exists Q'. split; auto. split; auto.
      pose proof (twin_edge _ _ _ PQ) as TE. rewrite (at_pedge N zc ts x y z l M CC RG HL HO Q' LQ) in TE. rewrite TE. destruct EP as [-> | ->]; auto.
    + assert (LO : fst P < length ts) by lia. exists P. split; auto.
      rewrite <- (at_pedge N zc ts x y z l M CC RG HL HO P LO), <- (at_tc N zc ts x y z l M CC RG HL HO P LO). auto.
Qed.
(** the edges reported so far *)
Definition edges_of {A : Arith} (l : list callback) : list Edge := edge_events (map cb_event l).
Lemma edges_of_other {A : Arith} (cb : callback) l : (forall e, cb_event cb <> EvEdge e) -> edges_of (cb :: l) = edges_of l.
Proof. intro H. unfold edges_of. cbn [map edge_events]. destruct (cb_event cb); auto. destruct (H e eq_refl). Qed.

Section S.
Context {A : Arith} {E : Exact A}.
Variable dbg : bool.
Variable points : Points.
Hypothesis PP : proper points.
Notation N := (npts points).
Notation zc := (zc points).
Notation bnd := (boundary (ps_head points) (ps_tail points)).
Notation within := (within points).

(** no three of the points (the two artificial ones included) on a line *)
Definition nocol : Prop :=
  forall i j k, i < N -> j < N -> k < N -> i <> j -> j <> k -> i <> k -> orient (zc i) (zc j) (zc k) <> 0%Z.
(** the floating-point test [in_scan_area] never wrongly answers yes *)
Definition scan_sound : Prop :=
  forall a b c d pa pb pc pd, pt points a = Done pa -> pt points b = Done pb -> pt points c = Done pc -> pt points d = Done pd ->
  in_scan_area pa pb pc pd = true -> (orient (zc a) (zc d) (zc b) < 0)%Z /\ (0 < orient (zc a) (zc d) (zc c))%Z.

(** ... and answers yes exactly when it should *)
Definition scan_exact : Prop :=
  forall a b c d pa pb pc pd, pt points a = Done pa -> pt points b = Done pb -> pt points c = Done pc -> pt points d = Done pd ->
  (in_scan_area pa pb pc pd = true <-> (orient (zc a) (zc d) (zc b) < 0)%Z /\ (0 < orient (zc a) (zc d) (zc c))%Z).
(** p-q is an edge of the input, stored at its upper endpoint q *)
Definition input_edge (p q : nat) : Prop := exists es, nth_error (ps_edges points) q = Some es /\ In p (edges_list es).
(** no three points on a line, no two input edges cross, and the scan test is exact *)
Record planar : Prop := {
  pn_col : nocol;
  pn_scan : scan_exact;
  pn_cross : forall p q p' q', input_edge p q -> input_edge p' q' -> ~ pcross (zc p) (zc q) (zc p') (zc q')
}.

(** a triangle that has just been added is counter-clockwise when the
    observer first sees it *)
Definition good_cb (cb : callback) : Prop :=
  match cb_event cb with
  | EvWillLegalize (Some t) => S t = length (cb_tris cb) -> tccw zc (cb_tris cb) t
  | _ => True
  end.
Lemma good_cb_dec cb : {good_cb cb} + {~ good_cb cb}.
Proof using.
  unfold good_cb. destruct (cb_event cb) as [| | | | |[t|]| | |]; auto.
  destruct (Nat.eq_dec (S t) (length (cb_tris cb))) as [H|H]; [|left; intro; contradiction].
  unfold tccw, ccw3. destruct (Z_lt_dec 0 (orient (zc (tv (cb_tris cb) t I0)) (zc (tv (cb_tris cb) t I1)) (zc (tv (cb_tris cb) t I2)))); [left; auto|right; auto].
Qed.
Definition Good (l : list callback) : Prop := Forall good_cb l.
Lemma Good_dec l : {Good l} + {~ Good l}.
Proof using. apply Forall_dec. apply good_cb_dec. Qed.

(** what the mesh shown by a callback owes to the previous one, within a legalization *)
Definition step_rel (prev : callback) (ts : TriangleStore) : Prop :=
  (exists a b i j need, cb_event prev = EvRotated (Some a) (Some b) /\ flipspec N zc (cb_tris prev) a i b j need true ts) \/
  ((forall a b, cb_event prev <> EvRotated a b) /\ ts = cb_tris prev).

Record claim (cb : callback) (l : list callback) : Prop := {
  c_mesh : mesh N zc (cb_tris cb);
  c_df : dflags zc (cb_tris cb);
  c_fo : front_ok points (cb_front cb);
  c_exact : exact N (cb_tris cb);
  c_bnd : exists R, bnd (cb_tris cb) (nodes (cb_front cb)) R [];
  c_agree : nocol -> flags_agree (cb_tris cb);
  c_outer : outer (cb_event cb) = true -> bnd (cb_tris cb) (nodes (cb_front cb)) [] [] /\ delaunay_but zc [] (cb_tris cb);
  c_rot : forall t ot, cb_event cb = EvRotated t ot -> exists a b i j, t = Some a /\ ot = Some b /\
    paired (cb_tris cb) a i b j /\ tc (cb_tris cb) a i = false /\ (0 < inc zc (cb_tris cb) (a, i) (b, j))%Z;
  c_step : during (cb_event cb) = true -> exists prev l', l = prev :: l' /\ step_rel prev (cb_tris cb);
  c_edge : forall e, cb_event cb = EvEdge e -> nocol -> marked_edge (cb_tris cb) (e_p e) (e_q e);
  c_marks : outer (cb_event cb) = true -> planar -> marks_are (edges_of (cb :: l)) (cb_tris cb);
  c_will : forall a, cb_event cb = EvWillLegalize (Some a) -> a < length (cb_tris cb) /\
    bnd (cb_tris cb) (nodes (cb_front cb)) [Some a] [] /\ exists P, delaunay_but zc (a :: P) (cb_tris cb)
}.
Fixpoint gclaims (l : list callback) : Prop :=
  match l with
  | [] => True
  | cb :: l' => (Good l -> claim cb l') /\ gclaims l'
  end.
Definition J (s : Sweeper) : Prop := gclaims (s_trace s).

(** a bad triangle was created: nothing is claimed any more *)
Definition NG (s : Sweeper) : Prop := ~ Good (s_trace s) /\ J s.
Lemma NG_grow s s' l : s_trace s' = l ++ s_trace s -> NG s -> NG s'.
Proof using.
  intros H [H1 H2]. unfold NG, J in *. rewrite H. clear H. induction l as [|cb l IH]; auto. destruct IH as [I3 I4].
  cbn [app]. split; [intro G; inversion G; auto|]. cbn [gclaims]. split; auto. intro G. inversion G. contradiction.
Qed.

Record Kst (D : list nat) (R : list tid) (Q : list nat) (ts : TriangleStore) (af : AdvancingFront) : Prop := {
  k_mesh : mesh N zc ts;
  k_df : dflags zc ts;
  k_del : delaunay_but zc Q ts;
  k_bnd : bnd ts (nodes af) R [];
  k_fo : front_ok points af;
  k_in : within D (nodes af);
  k_agree : nocol -> flags_agree ts;
  k_disc : disc points D ts
}.

Lemma bnd_weaken ts ns R R' : bnd ts ns R [] -> (forall x, In x R -> In x R') -> bnd ts ns R' [].
Proof using.
  intros [B1 B2 B3 B4] H. constructor; auto. intros e e' AD. destruct (B2 e e' AD) as (P & H1 & H2 & H3). exists P.
  split; auto. split; auto. destruct H3 as [H3|[H3|H3]]; auto.
Qed.
Lemma within_same D ns ns' : same_nodes ns ns' -> within D ns -> within D ns'.
Proof using. intros H W i e He. apply same_sym in H. destruct (same_nth _ _ _ _ H He) as (e' & H1 & H2 & H3). rewrite <- H3. eauto. Qed.

(** ** Legalization *)
Definition KL (D : list nat) (s0 : Sweeper) (R : list tid) (s : Sweeper) : Prop :=
  J s /\ Good (s_trace s) /\ mesh N zc (s_tris s) /\ dflags zc (s_tris s) /\
  (exists l, R = map Some l /\ Forall (fun r => r < length (s_tris s)) l) /\
  bnd (s_tris s) (nodes (s_front s)) R [] /\
  s_front s = s_front s0 /\ s_result s = s_result s0 /\ disc points D (s_tris s) /\
  (nocol -> flags_agree (s_tris s) /\ keeps (s_tris s0) (s_tris s) /\ keeps (s_tris s) (s_tris s0)) /\
  edges_of (s_trace s) = edges_of (s_trace s0) /\
  (exists prev l, s_trace s = prev :: l /\ step_rel prev (s_tris s)).

Lemma KL_emit D s0 R s ev : front_ok points (s_front s0) -> KL D s0 R s -> during ev = true ->
  (forall t ot, ev = EvRotated t ot -> exists a b i j, t = Some a /\ ot = Some b /\
    paired (s_tris s) a i b j /\ tc (s_tris s) a i = false /\ (0 < inc zc (s_tris s) (a, i) (b, j))%Z) ->
  J (mkSw (s_tris s) (s_front s) (s_result s) (mkCb ev (s_tris s) (s_front s) (s_result s) :: s_trace s)) /\
  Good (mkCb ev (s_tris s) (s_front s) (s_result s) :: s_trace s).
Proof using.
  intros FO (HJ & HG & HM & HD & HR & HB & HF & HS & HX & HN & HEV & (prev & l & HT & HP)) DU HE. split.
  - unfold J. cbn [s_trace gclaims]. split; [|exact HJ]. intros _. constructor; cbn [cb_tris cb_front cb_event]; auto.
    + rewrite HF. exact FO.
    + apply HX.
    + eauto.
    + intro NC. apply (HN NC).
    + intro O. destruct ev; discriminate.
    + intros _. exists prev, l. auto.
    + intros e -> _. discriminate.
    + intro O. destruct ev; discriminate.
    + intros a ->. discriminate.
  - constructor; auto. unfold good_cb. cbn [cb_event]. destruct ev; auto. discriminate.
Qed.

Lemma legalize_K fuel a s D P : J s -> Good (s_trace s) -> a < length (s_tris s) -> Kst D [Some a] (a :: P) (s_tris s) (s_front s) ->
  wp (legalize dbg points fuel (Some a)) s
    (fun f s' => J s' /\ f = FFuel /\ fuel <= N * N - N + 1)
    (fun _ s' => J s' /\ Good (s_trace s') /\ Kst D [] P (s_tris s') (s_front s') /\
      length (s_tris s') = length (s_tris s) /\ same_nodes (nodes (s_front s)) (nodes (s_front s')) /\
      (nocol -> keeps (s_tris s) (s_tris s') /\ keeps (s_tris s') (s_tris s)) /\ edges_of (s_trace s') = edges_of (s_trace s)).
Proof using PP.
  intros HJ HG La [HM HD HDB HB HF HW HA HX]. unfold legalize. apply wp_bind, wp_emit.
  set (cb0 := mkCb (EvWillLegalize (Some a)) (s_tris s) (s_front s) (s_result s)).
  set (s0 := mkSw (s_tris s) (s_front s) (s_result s) (cb0 :: s_trace s)).
  assert (G0 : Good (cb0 :: s_trace s)) by (constructor; auto; intros _; apply (m_ccw HM); exact La).
  assert (J0 : J s0).
  { unfold J. cbn [s_trace s0 gclaims]. split; [|exact HJ]. intros _. constructor; cbn [cb0 cb_tris cb_front cb_event]; auto; try discriminate.
    - apply HX.
    - eauto.
    - intros a' Q. injection Q as <-. split; [exact La|]. split; [exact HB|]. exists P. exact HDB. }
  assert (K0 : KL D s0 [Some a] s0).
  { split; [exact J0|]. split; [exact G0|]. split; [exact HM|]. split; [exact HD|]. split; [exists [a]; split; auto|]. split; [exact HB|].
    split; [reflexivity|]. split; [reflexivity|]. split; [exact HX|]. split; [intro NC; split; auto; split; apply keeps_refl|]. split; [reflexivity|].
    exists cb0, (s_trace s). split; auto. right. split; auto. intros x y H; discriminate. }
  assert (ST : forall R s1 t, KL D s0 R s1 ->
    KL D s0 R (mkSw (s_tris s1) (s_front s1) (s_result s1) (mkCb (EvLegalizeStep t) (s_tris s1) (s_front s1) (s_result s1) :: s_trace s1))).
  { intros R s1 t K. destruct (KL_emit D s0 R s1 (EvLegalizeStep t) HF K eq_refl ltac:(discriminate)) as [X Y].
    destruct K as (K1 & K2 & K3 & K4 & K5 & K6 & K7 & K8 & K8x & K9 & K9e & K10).
    split; [exact X|]. split; [exact Y|]. split; [exact K3|]. split; [exact K4|]. split; [exact K5|]. split; [exact K6|]. split; [exact K7|]. split; [exact K8|]. split; [exact K8x|].
    split; [exact K9|]. split; [exact K9e|]. eexists; eexists; split; [reflexivity|]. right. split; [discriminate|reflexivity]. }
  assert (RO : forall R s1 a0 i b j need s', KL D s0 R s1 -> rotation points s1 a0 i b j need s' ->
    KL D s0 (if need then R ++ [Some a0; Some b] else R) s').
  { intros R s1 a0 i b j need s' K (FS & Tc & Hi & E1 & E2 & E3).
    pose proof (fs_paired _ _ _ _ _ _ _ _ _ _ FS) as PR. pose proof (fs_len _ _ _ _ _ _ _ _ _ _ FS) as LL.
    assert (RT : forall t ot, EvRotated (Some a0) (Some b) = EvRotated t ot -> exists a b i j, t = Some a /\ ot = Some b /\
      paired (s_tris s1) a i b j /\ tc (s_tris s1) a i = false /\ (0 < inc zc (s_tris s1) (a, i) (b, j))%Z).
    { intros t ot H. injection H as <- <-. exists a0, b, i, j. auto. }
    destruct (KL_emit D s0 R s1 _ HF K (eq_refl : during (EvRotated (Some a0) (Some b)) = true) RT) as [X Y].
    destruct K as (K1 & K2 & K3 & K4 & (l & K5 & K5') & K6 & K7 & K8 & K8x & K9 & K9e & K10).
    split; [unfold J in *; rewrite E3; exact X|]. split; [rewrite E3; exact Y|]. split; [apply (fs_mesh _ _ _ _ _ _ _ _ _ _ FS)|].
    split; [eapply flip_dflags; eauto; intros; lia|].
    split.
    { subst R. exists (if need then l ++ [a0; b] else l). assert (FL : Forall (fun r => r < length (s_tris s')) l).
      { eapply Forall_impl; [|exact K5']. intros x Hx. unfold TriangleStore in *. cbv beta in *. rewrite LL. exact Hx. }
      destruct need; split; auto; [rewrite map_app; reflexivity|]. apply Forall_app. split; auto.
      unfold TriangleStore in *. rewrite LL. repeat constructor; apply PR. }
    split; [rewrite E1; eapply boundary_flip; eauto|]. split; [congruence|]. split; [congruence|].
    split; [eapply (disc_flip points PP D); [exact K3|apply HF| |exact FS|exact K8x]; rewrite K7 in K6; exact K6|].
    split.
    { intro NC. destruct (K9 NC) as (F1 & F2 & F3). split; [apply (proj1 (fs_agree _ _ _ _ _ _ _ _ _ _ FS F1))|]. split.
      - eapply keeps_trans; [exact F2|]. eapply flip_keeps; eauto.
      - eapply keeps_trans; [|exact F3]. eapply flip_keeps_back; eauto. }
    split; [rewrite E3; exact K9e|].
    eexists; eexists; split; [exact E3|]. left. exists a0, b, i, j, need. split; auto. }
  assert (RK : forall R s1 a0 i b j need s' m, KL D s0 R s1 -> mesh N zc (s_tris s1) -> rotation points s1 a0 i b j need s' ->
    rank N zc m (s_tris s1) -> rank N zc (S m) (s_tris s')).
  { intros R s1 a0 i b j need s' m K M1 (FS & Tc & Hi & E1 & E2 & E3) RM.
    destruct K as (_ & _ & _ & _ & _ & K6 & K7 & _). rewrite K7 in K6.
    eapply rank_flip; [exact M1|exact FS|exact Hi| |exact RM]. intros k p t u. exact (once points PP (s_tris s1) _ _ M1 HF K6 k p t u). }
  apply wp_bind. eapply wp_mono; [apply (legalize_loop_wp dbg points PP (KL D s0) ST RO (rank N zc) (N * N - N) RK (rank_cap N zc) fuel [a] [Some a] P s0); auto|..].
  - intros f s' (-> & H & (R' & K')). split; [exact (proj1 K')|]. split; auto. specialize (H 0 (rank_0 _ _ _)). cbn [length] in H. lia.
  - intros R' s1 (M1 & D1 & B1 & L1 & _ & K1). cbv beta.
    pose proof K1 as (X1 & X2 & X3 & X4 & (l & -> & X5') & X6 & X7 & X8 & X8x & X9 & X9e & (prev & tr & X10 & X11)).
    apply wp_bind. eapply wp_mono; [apply (map_triangles_wp dbg points PP l s1 []); auto|contradiction|].
    + rewrite X7. exact HF.
    + rewrite app_nil_r. exact X6.
    + intros ? s2 (af & -> & F2 & SN & B2). apply wp_emit. cbn [s_tris s_front s_result s_trace].
      assert (ND : Good (mkCb (EvLegalized (Some a)) (s_tris s1) af (s_result s1) :: s_trace s1)) by (constructor; [exact I|exact X2]).
      split; [|split; [exact ND|]].
      * unfold J. cbn [s_trace gclaims]. split; [|exact X1]. intros _. constructor; cbn [cb_tris cb_front cb_event]; auto; try discriminate.
        -- apply X8x.
        -- eauto.
        -- intro NC. apply (X9 NC).
        -- intros _. exists prev, tr. auto.
      * split; [constructor; auto|].
        -- apply within_same with (nodes (s_front s1)); auto. rewrite X7. exact HW.
        -- intro NC. apply (X9 NC).
        -- split; [exact L1|]. split; [rewrite X7 in SN; exact SN|]. split; [intro NC; apply (X9 NC)|]. exact X9e.
Qed.
End S.
