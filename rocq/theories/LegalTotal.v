(** * LegalTotal: a legalization started on any consistent mesh terminates and
    restores the Delaunay property, keeping every constraint *)
From Coq Require Import List Arith Bool Lia ZArith.
From Verif Require Import Base Num Shape ShapeSpec Utils Points Triangles Front Sweeper Cdt Lists Monad Traverse TraceSpec Grow Exact
  FrontSpec Geom Mesh Rotate Setup Legal Legalize Boundary Chain Remap Attach FrontInv Winding Cover CoverRun Lawson Good.
Import ListNotations.

Section S.
Context {A : Arith} {E : Exact A}.
Variable dbg : bool.
Variable points : Points.
Hypothesis PP : proper points.
Notation N := (npts points).
Notation zc := (zc points).
Notation bnd := (boundary (ps_head points) (ps_tail points)).

(** how many rotations the observer has been told of *)
Definition is_rotation (cb : callback) : bool := match cb_event cb with EvRotated _ _ => true | _ => false end.
Definition rotations (tr : list callback) : nat := length (filter is_rotation tr).

Definition KT (s0 : Sweeper) (R : list tid) (s : Sweeper) : Prop :=
  mesh N zc (s_tris s) /\ (exists l, R = map Some l /\ Forall (fun r => r < length (s_tris s)) l) /\
  bnd (s_tris s) (nodes (s_front s)) R [] /\
  s_front s = s_front s0 /\ s_result s = s_result s0 /\
  (flags_agree (s_tris s0) -> flags_agree (s_tris s) /\ keeps (s_tris s0) (s_tris s) /\ keeps (s_tris s) (s_tris s0)) /\
  exists m, rank N zc m (s_tris s) /\ rotations (s_trace s) = m + rotations (s_trace s0).

Theorem legalize_total fuel a s P : a < length (s_tris s) -> mesh N zc (s_tris s) -> dflags zc (s_tris s) ->
  delaunay_but zc (a :: P) (s_tris s) -> bnd (s_tris s) (nodes (s_front s)) [Some a] [] -> front_ok points (s_front s) ->
  N * N - N + 1 < fuel ->
  exists s', legalize dbg points fuel (Some a) s = (Done tt, s') /\
    mesh N zc (s_tris s') /\ dflags zc (s_tris s') /\ delaunay_but zc P (s_tris s') /\
    bnd (s_tris s') (nodes (s_front s')) [] [] /\ front_ok points (s_front s') /\ same_nodes (nodes (s_front s)) (nodes (s_front s')) /\
    length (s_tris s') = length (s_tris s) /\ s_result s' = s_result s /\
    (flags_agree (s_tris s) -> flags_agree (s_tris s') /\ keeps (s_tris s) (s_tris s') /\ keeps (s_tris s') (s_tris s)) /\
    2 * rotations (s_trace s') <= 2 * rotations (s_trace s) + (N * N - N).
Proof using PP.
  intros La HM HD HDB HB HF HFu.
  assert (W : wp (legalize dbg points fuel (Some a)) s (fun _ _ => False) (fun _ s' =>
    mesh N zc (s_tris s') /\ dflags zc (s_tris s') /\ delaunay_but zc P (s_tris s') /\
    bnd (s_tris s') (nodes (s_front s')) [] [] /\ front_ok points (s_front s') /\ same_nodes (nodes (s_front s)) (nodes (s_front s')) /\
    length (s_tris s') = length (s_tris s) /\ s_result s' = s_result s /\
    (flags_agree (s_tris s) -> flags_agree (s_tris s') /\ keeps (s_tris s) (s_tris s') /\ keeps (s_tris s') (s_tris s)) /\
    2 * rotations (s_trace s') <= 2 * rotations (s_trace s) + (N * N - N))).
  2:{ unfold wp in W. destruct (legalize dbg points fuel (Some a) s) as [[[]|p|u|] s'] eqn:Q; try contradiction. exists s'. auto. }
  unfold legalize. apply wp_bind, wp_emit.
  set (s0 := mkSw _ _ _ _).
  assert (K0 : KT s0 [Some a] s0).
  { split; [exact HM|]. split; [exists [a]; split; auto|]. split; [exact HB|]. split; [reflexivity|]. split; [reflexivity|].
    split; [intro FA; split; [exact FA|]; split; apply keeps_refl|]. exists 0. split; [apply rank_0|reflexivity]. }
  assert (ST : forall R s1 t, KT s0 R s1 ->
    KT s0 R (mkSw (s_tris s1) (s_front s1) (s_result s1) (mkCb (EvLegalizeStep t) (s_tris s1) (s_front s1) (s_result s1) :: s_trace s1))).
  { intros R s1 t K. exact K. }
  assert (RK : forall R s1 a0 i b j need s' m, KT s0 R s1 -> mesh N zc (s_tris s1) -> rotation points s1 a0 i b j need s' ->
    rank N zc m (s_tris s1) -> rank N zc (S m) (s_tris s')).
  { intros R s1 a0 i b j need s' m K M1 (FS & Tc & Hi & E1 & E2 & E3) RM.
    destruct K as (_ & _ & K6 & K7 & _). rewrite K7 in K6.
    eapply rank_flip; [exact M1|exact FS|exact Hi| |exact RM]. intros k p t u. exact (once points PP (s_tris s1) _ _ M1 HF K6 k p t u). }
  assert (RO : forall R s1 a0 i b j need s', KT s0 R s1 -> rotation points s1 a0 i b j need s' ->
    KT s0 (if need then R ++ [Some a0; Some b] else R) s').
  { intros R s1 a0 i b j need s' K RT. pose proof K as (K3 & (l & K5 & K5') & K6 & K7 & K8 & K9 & (m & K10 & K11)).
    pose proof RT as (FS & Tc & Hi & E1 & E2 & E3).
    pose proof (fs_paired _ _ _ _ _ _ _ _ _ _ FS) as PR. pose proof (fs_len _ _ _ _ _ _ _ _ _ _ FS) as LL.
    split; [apply (fs_mesh _ _ _ _ _ _ _ _ _ _ FS)|]. split.
    { subst R. exists (if need then l ++ [a0; b] else l). assert (FL : Forall (fun r => r < length (s_tris s')) l).
      { eapply Forall_impl; [|exact K5']. intros x Hx. unfold TriangleStore in *. cbv beta in *. rewrite LL. exact Hx. }
      destruct need; split; auto; [rewrite map_app; reflexivity|]. apply Forall_app. split; auto.
      unfold TriangleStore in *. rewrite LL. repeat constructor; apply PR. }
    split; [rewrite E1; eapply boundary_flip; eauto|]. split; [congruence|]. split; [congruence|].
    split.
    { intro FA. destruct (K9 FA) as (F1 & F2 & F3). split; [apply (proj1 (fs_agree _ _ _ _ _ _ _ _ _ _ FS F1))|]. split.
      - eapply keeps_trans; [exact F2|]. eapply flip_keeps; eauto.
      - eapply keeps_trans; [|exact F3]. eapply flip_keeps_back; eauto. }
    exists (S m). split; [exact (RK _ _ _ _ _ _ _ _ _ K K3 RT K10)|]. rewrite E3. unfold rotations in *. cbn [filter is_rotation cb_event length]. rewrite K11. reflexivity. }
  apply wp_bind. eapply wp_mono; [apply (legalize_loop_wp dbg points PP (KT s0) ST RO (rank N zc) (N * N - N) RK (rank_cap N zc) fuel [a] [Some a] P s0); auto|..].
  - intros f s' (-> & H & _). specialize (H 0 (rank_0 _ _ _)). cbn [length] in H. lia.
  - intros R' s1 (M1 & D1 & B1 & L1 & _ & K1). cbv beta.
    destruct K1 as (X3 & (l & -> & X5') & X6 & X7 & X8 & X9 & (m & X10 & X11)).
    apply wp_bind. eapply wp_mono; [apply (map_triangles_wp dbg points PP l s1 []); auto|contradiction|].
    + rewrite X7. exact HF.
    + rewrite app_nil_r. exact X6.
    + intros ? s2 (af & -> & F2 & SN & B2). apply wp_emit. cbn [s_tris s_front s_result s_trace].
      split; [exact M1|]. split; [exact D1|]. split; [exact B1|]. split; [exact B2|]. split; [exact F2|].
      split; [rewrite X7 in SN; exact SN|]. split; [exact L1|]. split; [exact X8|]. split; [exact X9|].
      pose proof (rank_cap _ _ _ _ X10) as CAP. change (rotations (s_trace s0)) with (rotations (s_trace s)) in X11. unfold rotations in *. cbn [s_trace filter is_rotation cb_event]. rewrite X11. lia.
Qed.
End S.
