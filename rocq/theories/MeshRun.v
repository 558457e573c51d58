(** * MeshRun: the mesh through a whole run *)
From Coq Require Import List Arith Bool Lia ZArith Permutation Sorted.
From Verif Require Import Base Num Shape ShapeSpec Utils Points Triangles Front Sweeper Cdt F64 Lists BuilderSpec History SortSpec Monad Traverse TraceSpec Grow Exact
  PropsBuilder PropsTrace FrontSpec Geom Mesh Rotate Setup Legal Legalize Boundary Chain Remap Attach FrontInv Disc Good Marks Flips Fills Init.
Import ListNotations.

(** ** stores that differ in the interior marks only *)
Definition same_shape (ts ts' : TriangleStore) : Prop :=
  length ts' = length ts /\ forall a i, tv ts' a i = tv ts a i /\ tn ts' a i = tn ts a i /\ tc ts' a i = tc ts a i /\ td ts' a i = td ts a i.
Lemma shape_refl ts : same_shape ts ts. Proof. split; auto. Qed.
Lemma shape_trans a b c : same_shape a b -> same_shape b c -> same_shape a c.
Proof.
  intros [H1 H2] [K1 K2]. split; [congruence|]. intros x i. destruct (H2 x i) as (A1 & A2 & A3 & A4), (K2 x i) as (B1 & B2 & B3 & B4).
  repeat split; congruence.
Qed.
Lemma shape_interior ts a b : a < length ts -> same_shape ts (list_set ts a (with_interior (tri_at ts a) b)).
Proof.
  intro L. split; [apply list_set_length|]. intros c i. unfold tv, tn, tc, td. rewrite tri_at_set by auto.
  destruct (Nat.eqb_spec a c) as [<-|]; [|auto]. auto.
Qed.
Lemma shape_paired ts ts' a i b j : same_shape ts ts' -> paired ts' a i b j -> paired ts a i b j.
Proof.
  intros [H1 H2] (P1 & P2 & P3 & P4 & P5 & P6). destruct (H2 a i) as (A1 & A2 & _), (H2 b j) as (B1 & B2 & _).
  destruct (H2 a (nxt i)) as (E1 & _), (H2 a (prv i)) as (E2 & _), (H2 b (nxt j)) as (E3 & _), (H2 b (prv j)) as (E4 & _).
  unfold paired, opposed. unfold TriangleStore in *. repeat split; congruence.
Qed.
Lemma shape_sym ts ts' : same_shape ts ts' -> same_shape ts' ts.
Proof. intros [H1 H2]. split; [auto|]. intros a i. destruct (H2 a i) as (E1 & E2 & E3 & E4). auto. Qed.
Section Shape.
Variables (N : nat) (zc : nat -> zpt) (ts ts' : TriangleStore).
Hypothesis SH : same_shape ts ts'.
Lemma shape_inc P Q : inc zc ts' P Q = inc zc ts P Q.
Proof using SH.
  unfold inc. destruct SH as [_ H]. destruct (H (fst P) (snd P)) as (-> & _), (H (fst P) (nxt (snd P))) as (-> & _),
    (H (fst P) (prv (snd P))) as (-> & _), (H (fst Q) (snd Q)) as (-> & _). reflexivity.
Qed.
Lemma shape_mesh : mesh N zc ts -> mesh N zc ts'.
Proof using SH.
  intros [M1 M2 M3]. pose proof SH as [L H]. constructor.
  - intros a i La. destruct (H a i) as (-> & _). apply M1. unfold TriangleStore in *. congruence.
  - intros a La. unfold tccw. destruct (H a I0) as (-> & _), (H a I1) as (-> & _), (H a I2) as (-> & _). apply M2. unfold TriangleStore in *. congruence.
  - intros a i b La Hn. destruct (H a i) as (_ & E & _). rewrite E in Hn. destruct (M3 a i b) as [j P]; auto.
    + unfold TriangleStore in *. congruence.
    + exists j. apply (shape_paired ts' ts); [apply shape_sym; exact SH|exact P].
Qed.
Lemma shape_dflags : dflags zc ts -> dflags zc ts'.
Proof using SH.
  intros D P Q PQ F. rewrite shape_inc. apply D; [apply (shape_paired ts ts'); auto|]. unfold ptd in *. rewrite <- F. symmetry. apply SH.
Qed.
Lemma shape_del R : delaunay_but zc R ts -> delaunay_but zc R ts'.
Proof using SH.
  intros D P Q (B1 & B2 & B3 & B4). apply D. rewrite shape_inc in B4. unfold ptc in *. destruct SH as [_ H].
  destruct (H (fst P) (snd P)) as (_ & _ & E1 & _), (H (fst Q) (snd Q)) as (_ & _ & E2 & _).
  split; [apply (shape_paired ts ts'); auto|]. split; [unfold ptc; congruence|]. split; [unfold ptc; congruence|auto].
Qed.
Lemma shape_agree : flags_agree ts -> flags_agree ts'.
Proof using SH.
  intros F a i b j P. pose proof SH as [_ H]. destruct (H a i) as (_ & _ & -> & _), (H b j) as (_ & _ & -> & _).
  apply F. apply (shape_paired ts ts'); auto.
Qed.
Lemma shape_pedge P : pedge ts' P = pedge ts P.
Proof using SH. unfold pedge. destruct SH as [_ H]. destruct (H (fst P) (nxt (snd P))) as (-> & _), (H (fst P) (prv (snd P))) as (-> & _). reflexivity. Qed.
Lemma shape_bpos P : bpos ts' P <-> bpos ts P.
Proof using SH. clear N zc. unfold bpos, ptn. pose proof SH as [L H]. destruct (H (fst P) (snd P)) as (_ & -> & _). unfold TriangleStore in *. rewrite L. tauto. Qed.
Lemma shape_bnd {A : Arith} h t (ns : list Entry) R l : boundary h t ts ns R l -> boundary h t ts' ns R l.
Proof using SH.
  intros [B1 B2 B3 B4]. constructor.
  - intros P HP. rewrite shape_pedge. apply B1. apply shape_bpos. exact HP.
  - intros e e' AD. destruct (B2 e e' AD) as (P & H1 & H2 & H3). exists P. rewrite shape_bpos, shape_pedge. auto.
  - intros P Q HP HQ. rewrite !shape_pedge. apply B3; apply shape_bpos; auto.
  - destruct B4 as (P & H1 & H2). exists P. rewrite shape_bpos, shape_pedge. auto.
Qed.
End Shape.
Lemma shape_marks ts ts' : same_shape ts ts' -> same_marks ts ts'.
Proof.
  intros SH. assert (X : forall t t' u v, same_shape t t' -> marked_edge t u v -> marked_edge t' u v).
  { intros t t' u v SH' (P & L & EP & T). exists P. rewrite (shape_pedge t t' SH'). destruct SH' as [LL HH]. split; [unfold TriangleStore in *; lia|]. split; auto.
    unfold ptc in *. rewrite (proj1 (proj2 (proj2 (HH _ _)))). exact T. }
  intros u v. split; apply X; auto. apply shape_sym. exact SH.
Qed.

Section S.
Context {A : Arith} {E : Exact A}.
Variable dbg : bool.
Variable points : Points.
Hypothesis PP : proper points.
Notation N := (npts points).
Notation zc := (zc points).
Notation bnd := (boundary (ps_head points) (ps_tail points)).
Notation Kst := (Kst points).
Notation J := (J points).
Notation Good := (Good points).
Notation nocol := (nocol points).
Notation NG := (NG points).
Notation within := (within points).
Notation Inv := (Inv points).

(** outer callbacks *)
Lemma emit_edge_inv D e s : outer e = true -> InvM points D (edge_events [e] ++ edges_of (s_trace s)) s ->
  (forall ed, e = EvEdge ed -> Good (s_trace s) -> nocol -> marked_edge (s_tris s) (e_p ed) (e_q ed)) ->
  wp (emit e) s (fun _ => J) (fun _ s' => Inv D s').
Proof using.
  intros O (HJ & HK & HM) HE. apply wp_emit.
  assert (EO : edges_of (mkCb e (s_tris s) (s_front s) (s_result s) :: s_trace s) = edge_events [e] ++ edges_of (s_trace s)) by (destruct e; reflexivity).
  split; [|split].
  - unfold J. unfold Good.J. cbn [s_trace gclaims]. split; [|exact HJ]. intro G. inversion G as [|? ? G1 G2]; subst.
    specialize (HK G2). specialize (HM G2). destruct HK. constructor; cbn [cb_tris cb_front cb_event]; auto.
    + apply k_disc.
    + exists []. auto.
    + intros t ot ->. discriminate.
    + intro Du. destruct e; discriminate.
    + intros _ PN. rewrite EO. apply HM. exact PN.
    + intros a ->. discriminate.
  - cbn [s_trace s_tris s_front]. intro G. inversion G; subst. auto.
  - cbn [s_trace s_tris s_front]. intro G. inversion G; subst. rewrite EO. auto.
Qed.
Lemma emit_outer_inv D e s : outer e = true -> Inv D s -> (forall ed, e <> EvEdge ed) -> wp (emit e) s (fun _ => J) (fun _ s' => Inv D s').
Proof using.
  intros O HI HE. apply emit_edge_inv; auto.
  - assert (edge_events [e] = []) as -> by (destruct e; auto; destruct (HE e eq_refl)). exact HI.
  - intros ed Q. destruct (HE ed Q).
Qed.

Lemma lift_inv {T U} D (r : res T) (m : T -> M U) s (Q : U -> Sweeper -> Prop) : Inv D s ->
  (forall y, r = Done y -> wp (m y) s (fun _ => J) Q) -> wp (bind (lift r) m) s (fun _ => J) Q.
Proof using. intros Hs H. apply wp_bind, wp_lift. destruct r; simpl; try (eapply Inv_J; eauto). apply H; auto. Qed.

Lemma edges_loop_inv D fuel id q : scan_sound points -> nth_error (ps_points points) id = Some q ->
  forall ps s, Inv D s -> (forall p, In p ps -> edge_ok points D p id) ->
  wp (edges_loop dbg points fuel id q ps) s (fun _ => J) (fun _ s' => Inv D s').
Proof using PP.
  intros SC Hq. induction ps as [|p ps IH]; intros s Hs NE; cbn [edges_loop]; [apply wp_skip; auto|]. cbv zeta.
  apply wp_bind. eapply wp_mono; [apply (edge_event_inv dbg points PP D); auto; apply NE; left; auto|auto|]. intros ? s1 [H1 H2]. cbv beta.
  apply wp_bind. eapply wp_mono; [apply (emit_edge_inv D (EvEdge (mkEdge p id)) s1 eq_refl H1)|auto|].
  - intros ed Q. injection Q as <-. cbn [e_p e_q]. exact H2.
  - intros ? s2 H3. cbv beta. apply IH; auto. intros; apply NE; right; auto.
Qed.

(** the points still to come *)
Definition mtodo (D : list nat) (l : list (pid * Point * PointEdges)) : Prop :=
  todo points D l /\
  StronglySorted (fun y z => ylt (zc (fst (fst y))) (zc (fst (fst z)))) l /\
  (forall v, v < ps_head points -> In v D \/ In v (map (fun y => fst (fst y)) l)) /\
  forall y, In y l -> (forall e, In e D -> ylt (zc e) (zc (fst (fst y)))) /\
    (forall p, In p (edges_list (snd y)) -> p < ps_head points /\ ylt (zc p) (zc (fst (fst y))) /\ input_edge points p (fst (fst y))).
Lemma ylt_irrefl a : ~ ylt a a. Proof using. unfold ylt. lia. Qed.
Lemma ylt_asym a b : ylt a b -> ylt b a -> False. Proof using. unfold ylt. lia. Qed.

Lemma sweep_loop_inv fuel : scan_sound points -> forall l D s, Inv D s -> mtodo D l ->
  wp (sweep_loop dbg points fuel l) s (fun _ => J) (fun _ s' => exists D', Inv D' s' /\ forall v, v < ps_head points -> In v D').
Proof using PP.
  intro SC. induction l as [|[[id p] es] l IH]; intros D s Hs ([ND TD] & SS & TC & TO); cbn [sweep_loop].
  { apply wp_skip. exists D. split; [exact Hs|]. intros v Lv. destruct (TC v Lv) as [Q|[]]. exact Q. }
  destruct (TD _ (or_introl eq_refl)) as (Hp & Nd & Lh). destruct (TO _ (or_introl eq_refl)) as (Hy & Hne). cbn [fst snd] in *.
  inversion ND as [|? ? NI ND']; subst. inversion SS as [|? ? SS' FS]; subst.
  apply wp_bind. eapply wp_mono; [apply (emit_outer_inv D (EvEnterPoint id) s eq_refl Hs); discriminate|auto|]. intros ? s1 H1. cbv beta in H1.
  apply wp_bind. eapply wp_mono; [apply (point_event_inv dbg points PP D); eauto|auto|]. intros ? s2 H2. cbv beta in H2.
  apply wp_bind. eapply wp_mono; [apply (emit_outer_inv (id :: D) (EvExitPoint id) s2 eq_refl H2); discriminate|auto|]. intros ? s3 H3. cbv beta in H3.
  assert (OK : forall p0, In p0 (edges_list es) -> edge_ok points (id :: D) p0 id).
  { intros p0 Hp0. destruct (Hne p0 Hp0) as (L0 & Y0 & IE). split; [intros ->; apply (ylt_irrefl _ Y0)|]. split; [|split; [exact Lh|split; [|exact IE]]].
    - destruct (TC p0 L0) as [Q|[Q|Q]]; [right; auto|left; auto|]. exfalso. apply in_map_iff in Q as (y & <- & Q). rewrite Forall_forall in FS. apply (ylt_asym _ _ Y0 (FS y Q)).
    - intros e [<-|He] Ne; [congruence|]. apply Hy. exact He. }
  apply wp_bind. eapply wp_mono; [apply (edges_loop_inv (id :: D)); eauto|auto|]. intros ? s4 H4. cbv beta in H4.
  apply wp_bind.
  assert (G : forall b : bool, wp (if b then bind get_tris (fun ts => bind (lift (verify_triangles dbg points ts)) (fun ok =>
         bind (lift (rassert P_dbg_verify ok)) (fun _ => skip))) else skip) s4 (fun _ => J) (fun _ s' => s' = s4)).
  { intros []; [|apply wp_skip; auto]. apply wp_bind, wp_get_tris.
    apply (lift_inv _ _ _ _ _ H4). intros ok _. apply (lift_inv _ _ _ _ _ H4). intros u _. apply wp_skip. auto. }
  eapply wp_mono; [apply G|auto|]. intros ? s5 ->.
  apply (IH (id :: D)); auto. split; [|split; [exact SS'|split; [|]]].
  - split; auto. intros y Hyl. destruct (TD y (or_intror Hyl)) as (T1 & T2 & T3).
    split; auto. split; auto. intros [Q|Q]; auto. apply NI. rewrite Q. apply (in_map (fun y => fst (fst y)) _ _ Hyl).
  - intros v Lv. destruct (TC v Lv) as [Q|[Q|Q]]; [left; right; auto|left; left; auto|right; auto].
  - intros y Hyl. destruct (TO y (or_intror Hyl)) as (T1 & T2). split; auto. intros e [<-|He]; auto.
    rewrite Forall_forall in FS. apply (FS y Hyl).
Qed.

(** ** finalization changes interior marks and the result only *)
Definition FZ (s0 s : Sweeper) : Prop :=
  s_front s = s_front s0 /\ s_trace s = s_trace s0 /\ same_shape (s_tris s0) (s_tris s).
Lemma FZ_inv D s0 s : Inv D s0 -> FZ s0 s -> Inv D s.
Proof using.
  intros (HJ & HK & HM) (F1 & F2 & F3). split; [unfold J, Good.J in *; rewrite F2; exact HJ|]. rewrite F2. split.
  2:{ intro G. eapply MK_same; [|apply HM; exact G]. intros _. apply shape_marks. exact F3. }
  intro G. destruct (HK G) as [K1 K2 K3 K4 K5 K6 K7 K8].
  rewrite F1. constructor; auto.
  - eapply shape_mesh; eauto.
  - eapply shape_dflags; eauto.
  - eapply shape_del; eauto.
  - eapply shape_bnd; eauto.
  - intro NC. eapply shape_agree; eauto.
  - destruct F3 as [L3 F3]. apply (disc_same points D (s_tris s0) (s_tris s)); auto.
    + intros c k. apply F3.
    + intros P. apply F3.
    + intros P Q. apply shape_paired. split; auto.
Qed.
Lemma clean_loop_FZ D s0 : Inv D s0 -> forall fuel st s, FZ s0 s -> wp (clean_loop fuel st) s (fun _ => J) (fun _ s' => FZ s0 s').
Proof using.
  intros H0. induction fuel as [|fu IH]; intros st s Hs; cbn [clean_loop].
  { cbn. eapply Inv_J. eapply FZ_inv; eauto. }
  destruct st as [|[t from] st]; [apply wp_skip; auto|]. destruct (tid_invalid t); auto.
  apply wp_bind, wp_get_tris. apply (lift_inv D); [eapply FZ_inv; eauto|]. intros tr Ht. destruct (negb _); auto. cbv zeta.
  apply wp_bind, wp_put_tris. apply wp_bind, wp_push_result. apply IH. destruct Hs as (F1 & F2 & F3). split; [exact F1|]. split; [exact F2|].
  cbn [s_tris]. eapply shape_trans; [exact F3|]. destruct t as [a|]; [|discriminate]. cbn [ts_put ts_get_mut] in *.
  destruct (nth_error (s_tris s) a) as [x|] eqn:Ex; [|discriminate]. cbn in Ht. injection Ht as <-.
  rewrite <- (at_nth_error _ _ _ Ex). apply shape_interior. eapply nth_error_lt; eauto.
Qed.
Lemma finalize_FZ D fuel s : Inv D s -> wp (finalize_polygon fuel) s (fun _ => J) (fun _ s' => FZ s s').
Proof using.
  intro Hs. assert (R : FZ s s) by (split; [|split]; auto; apply shape_refl).
  unfold finalize_polygon. apply wp_bind, wp_get_front.
  destruct (front_nth (s_front s) 1); [|apply wp_skip; auto]. destruct (nr_tri _); [|apply wp_skip; auto].
  apply wp_bind, wp_get_tris. apply (lift_inv D); auto. intros t0 _. destruct (negb _); [|apply wp_skip; auto].
  eapply clean_loop_FZ; eauto.
Qed.

Theorem run_body_inv fuel l D s : scan_sound points -> iter_point_by_y points 1 = Done l -> Inv D s -> mtodo D l ->
  wp (run_body dbg fuel points) s (fun _ => J) (fun _ s' => exists D', Inv D' s' /\ forall v, v < ps_head points -> In v D').
Proof using PP.
  intros SC El Hs TD. unfold run_body, sweep_points. apply wp_bind. apply wp_bind, wp_lift. rewrite El. cbn [okr].
  eapply wp_mono; [eapply sweep_loop_inv; eauto|auto|]. intros ? s1 (D' & H1 & HA).
  apply wp_bind. eapply wp_mono; [apply (emit_outer_inv D' EvSweepDone s1 eq_refl H1); discriminate|auto|]. intros ? s2 H2. cbv beta in H2.
  apply wp_bind. eapply wp_mono; [apply (finalize_FZ D' fuel s2 H2)|auto|]. intros ? s3 H3. cbv beta in H3.
  eapply wp_mono; [apply (emit_outer_inv D' EvFinalized s3 eq_refl (FZ_inv _ _ _ H2 H3)); discriminate|auto|]. intros ? s4 H4. exists D'. split; [exact H4|exact HA].
Qed.
End S.
