(** * Local: where the first inverted triangle of a run comes from *)
From Coq Require Import List Arith Bool Lia ZArith Permutation Sorted.
From Verif Require Import Base Num Shape ShapeSpec Utils Points Triangles Front Sweeper Cdt Lists Monad Traverse TraceSpec Grow Exact PropsTrace
  FrontSpec Geom Mesh Rotate Setup Legal Legalize Boundary Chain Remap Attach FrontInv Disc Good Marks Flips LegalTotal Cone Planar Corridor Frames Insert Fills MeshRun FanAll Total FrontSub FillTotal EdgeFill NoCross CorTotal InsertTotal EdgeTotal RunTotal.
Import ListNotations.

Lemma ex_lt_dec (P : nat -> Prop) : (forall x, {P x} + {~ P x}) -> forall n, {exists x, x < n /\ P x} + {~ exists x, x < n /\ P x}.
Proof.
  intros D n. induction n as [|n [IH|IH]].
  - right. intros (x & L & _). lia.
  - left. destruct IH as (x & L & H). exists x. split; auto.
  - destruct (D n) as [H|H]; [left; exists n; auto|]. right. intros (x & L & K). destruct (Nat.eq_dec x n) as [->|NE]; [auto|]. apply IH. exists x. split; auto. lia.
Qed.

Section S.
Context {A : Arith} {E : Exact A}.
Variable dbg : bool.
Variable points : Points.
Hypothesis PP : proper points.
Notation N := (npts points).
Notation zc := (zc points).
Notation Good := (Good points).
Notation TK := (TK points).
Notation Fuel := (Fuel points).
Notation sx := (sx points).
Notation EB := (EB points).
Notation FP := (EdgeTotal.FP points).

(** p-q (q the upper end) leans to the right, and two points v, w below it follow a point u
    on or above it (all of them between q and p) without a left turn *)
Definition convex_below (p q : nat) : Prop :=
  (fst (zc q) < fst (zc p))%Z /\ exists u, u < ps_head points /\ exists v, v < ps_head points /\ exists w, w < ps_head points /\
  ((fst (zc q) <= fst (zc u))%Z /\ (fst (zc u) < fst (zc v))%Z /\ (fst (zc v) < fst (zc w))%Z /\ (fst (zc w) < fst (zc p))%Z /\
  (orient (zc q) (zc u) (zc p) <= 0)%Z /\ (0 < orient (zc q) (zc v) (zc p))%Z /\ (0 < orient (zc q) (zc w) (zc p))%Z /\
  (orient (zc u) (zc v) (zc w) <= 0)%Z).
Lemma convex_below_dec p q : {convex_below p q} + {~ convex_below p q}.
Proof using.
  unfold convex_below. destruct (Z_lt_dec (fst (zc q)) (fst (zc p))) as [H|H]; [|right; tauto].
  match goal with |- {_ /\ ?X} + {_} => assert (D : {X} + {~ X}) end.
  { apply ex_lt_dec. intro u. apply ex_lt_dec. intro v. apply ex_lt_dec. intro w.
    repeat (match goal with |- {?a /\ ?b} + {_} => let D := fresh in assert (D : {a} + {~ a}); [first [apply Z_lt_dec|apply Z_le_dec]|destruct D; [|right; tauto]];
      let D := fresh in assert (D : {b} + {~ b}); [|destruct D; [left; tauto|right; tauto]] end). apply Z_le_dec. }
  destruct D; [left; auto|right; tauto].
Qed.

(** the floating point tests of the point events answer as exact ones would *)
Record exact_fills : Prop := {
  ef_eps : forall a b pa pb, nth_error (ps_points points) a = Some pa -> nth_error (ps_points points) b = Some pb ->
    f_le (px pa) (f_add (px pb) f_eps) = true -> (fst (zc a) <= fst (zc b))%Z;
  ef_angle : forall o a b po pa pb, nth_error (ps_points points) o = Some po -> nth_error (ps_points points) a = Some pa -> nth_error (ps_points points) b = Some pb ->
    is_negative (angle_new po pa pb) = false -> (0 <= orient (zc o) (zc a) (zc b))%Z
}.
Lemma tame_of (Ed : nat -> nat -> Prop) : nocol points -> exact_fills -> (forall p q, Ed p q -> ~ convex_below p q) -> tame points Ed.
Proof using.
  intros NC [E1 E2] H. constructor; auto. intros p q u v w EE X Lu Lv Lw H1 H2 H3 H4 H5 H6 H7.
  destruct (Z_lt_le_dec 0 (orient (zc u) (zc v) (zc w))) as [|G]; auto. exfalso. apply (H p q EE). split; auto. exists u. split; auto. exists v. split; auto. exists w. split; auto. repeat (split; [assumption|]). assumption.
Qed.

(** the last point whose event was announced is q, and that event is over *)
Definition at_edges_of (q : nat) (tr : list callback) : Prop := exists es, point_events (map cb_event (rev tr)) = es ++ [EvExitPoint q].
Definition culprit (tr : list callback) : Prop := exists p q, input_edge points p q /\ convex_below p q /\ at_edges_of q tr.
Definition Loc (l : list callback) : Prop := forall l1 cb l2, l = l1 ++ cb :: l2 -> Good l2 -> ~ good_cb points cb -> culprit l2.

Lemma Loc_good l : Good l -> Loc l.
Proof using. intros G l1 cb l2 -> _ NG. apply Forall_app in G as [_ G]. inversion G. contradiction. Qed.
Lemma split_ext {X} (l tr l1 : list X) c l2 : l ++ tr = l1 ++ c :: l2 -> (exists m, l2 = m ++ tr /\ l = l1 ++ c :: m) \/ (exists m, tr = m ++ c :: l2).
Proof using.
  revert l1. induction l as [|x l IH]; intros l1 H; cbn in H; [right; eauto|].
  destruct l1 as [|y l1]; cbn in H.
  - injection H as -> <-. left. exists l. auto.
  - injection H as -> H. destruct (IH l1 H) as [(m & -> & ->)|(m & ->)]; [left|right]; eauto.
Qed.
Lemma Loc_ext l tr : ~ Good tr -> Loc tr -> Loc (l ++ tr).
Proof using.
  intros NG H l1 cb l2 Q G NC. apply split_ext in Q as [(m & -> & _)|(m & ->)].
  - apply Forall_app in G as [_ G]. contradiction.
  - exact (H _ _ _ eq_refl G NC).
Qed.
Lemma Loc_culprit l tr : Good tr -> point_events (map cb_event (rev l)) = [] -> culprit tr -> Loc (l ++ tr).
Proof using.
  intros GT HL (p & q & H1 & H2 & es & H3) l1 cb l2 Q G NC. apply split_ext in Q as [(m & -> & ->)|(m & ->)].
  - exists p, q. split; auto. split; auto. exists es. rewrite rev_app_distr, map_app, point_events_app, H3.
    rewrite rev_app_distr, map_app, point_events_app in HL. cbn [rev] in HL. rewrite map_app, point_events_app in HL.
    apply app_eq_nil in HL as [HL _]. apply app_eq_nil in HL as [HL _]. rewrite HL, app_nil_r. auto.
  - apply Forall_app in GT as [_ GT]. inversion GT. contradiction.
Qed.

(** ** the logic: like [gd] without tameness, plus [Loc] *)
Definition lc {T} (m : M T) (s : Sweeper) (Q : T -> Sweeper -> Prop) : Prop := Good (s_trace s) ->
  (Good (s_trace (snd (m s))) -> exists x, fst (m s) = Done x /\ Q x (snd (m s))) /\ Loc (s_trace (snd (m s))).
Lemma lc_bind {T U} (m : M T) (k : T -> M U) s (Q : U -> Sweeper -> Prop) : (forall x, grows (k x)) ->
  lc m s (fun x s' => lc (k x) s' Q) -> lc (bind m k) s Q.
Proof using.
  intros G H G0. destruct (H G0) as [H1 H2]. unfold bind. destruct (m s) as [r s1]. cbn [fst snd] in *.
  destruct (Good_dec points (s_trace s1)) as [G1|G1].
  - destruct (H1 G1) as (x & -> & K). apply K. exact G1.
  - destruct r as [x|p|u|]; cbn [fst snd]; [|split; [intro; contradiction|exact H2]..].
    pose proof (G x (s_trace s1) s1 (ex_intro _ [] eq_refl)) as GR. unfold wp in GR.
    assert (GR' : Grown (s_trace s1) (snd (k x s1))) by (destruct (k x s1) as [[] s2]; exact GR).
    split; [intro K; destruct G1; eapply Grown_good; eauto|]. destruct GR' as [l ->]. apply Loc_ext; auto.
Qed.
Lemma lc_mono {T} (m : M T) s (Q Q' : T -> Sweeper -> Prop) : lc m s Q -> (forall x s', Q x s' -> Q' x s') -> lc m s Q'.
Proof using. intros H K G0. destruct (H G0) as [H1 H2]. split; auto. intro G. destruct (H1 G) as (x & H3 & H4). eauto. Qed.
Lemma lc_skip s (Q : unit -> Sweeper -> Prop) : Q tt s -> lc skip s Q.
Proof using. intros H G0. split; [intros _; exists tt; auto|apply Loc_good; auto]. Qed.
Lemma lc_tame {T} Ed (m : M T) s (Q : T -> Sweeper -> Prop) : tame points Ed -> gd (Ed := Ed) points m s Q -> lc m s (fun x s' => Q x s' /\ Good (s_trace s')).
Proof using. intros TM H G0. destruct (H G0 (or_intror TM)) as (x & H1 & H2 & H3). split; [eauto|apply Loc_good; auto]. Qed.

Lemma edge_event_loc D fuel p q pq L R s : planar points -> exact_fills -> Fuel (2 * N + 6 + EB) fuel -> TK D (L ++ q :: R) s -> sx (L ++ q :: R) ->
  nth_error (ps_points points) q = Some pq -> edge_ok points D p q -> In q D -> p < ps_head points -> at_edges_of q (s_trace s) ->
  lc (edge_event dbg points fuel (mkEdge p q) pq) s (fun _ s' => (FP D q s' /\ Good (s_trace s') /\
    InvM points D (mkEdge p q :: edges_of (s_trace s')) s' /\ marked_edge (s_tris s') p q) /\ Good (s_trace s') /\ at_edges_of q (s_trace s')).
Proof using PP.
  intros PN EF FU T SX Hq OK Dq Lp AE. pose proof OK as (_ & _ & _ & _ & IE).
  (* the event emits nothing but legalization callbacks *)
  assert (X : exists l, s_trace (snd (edge_event dbg points fuel (mkEdge p q) pq s)) = l ++ s_trace s /\ point_events (map cb_event (rev l)) = []).
  { pose proof (grow_edge_event dbg points _ (Grown_X (s_trace s)) fuel (mkEdge p q) pq s (ex_intro _ [] eq_refl)) as G.
    pose proof (edge_event_out dbg points (evs s) fuel (mkEdge p q) pq s) as O. specialize (O (ex_intro _ [] (conj blocks_nil (eq_sym (app_nil_r _))))).
    unfold wp in G, O.
    assert (K : exists s', s' = snd (edge_event dbg points fuel (mkEdge p q) pq s) /\ Grown (s_trace s) s' /\ Any (evs s) s').
    { destruct (edge_event dbg points fuel (mkEdge p q) pq s) as [[x|pp|u|] s']; cbn [snd]; exists s'; split; auto; split; auto. left. exact O. }
    destruct K as (s' & <- & [l Hl] & HA). exists l. split; auto.
    assert (EV : evs s' = evs s ++ map cb_event (rev l)) by (unfold evs; rewrite Hl, rev_app_distr, map_app; reflexivity).
    assert (K : exists b, evs s' = evs s ++ b /\ point_events b = []).
    { destruct HA as [(b & Hb & Q)|(t & HI)].
      - exists b. split; auto. apply (blocks_events b Hb).
      - unfold In_ in HI. destruct HI as (b & body & Hb & Hbd & Q). exists (b ++ EvWillLegalize t :: body). split; [rewrite Q, ?app_assoc; auto|].
        rewrite point_events_app, (proj1 (blocks_events b Hb)). cbn. apply (body_events body Hbd). }
    destruct K as (b & Q & PB). rewrite EV in Q. apply app_inv_head in Q. rewrite Q. exact PB. }
  destruct X as (l & XT & XP).
  assert (AE' : at_edges_of q (s_trace (snd (edge_event dbg points fuel (mkEdge p q) pq s)))).
  { destruct AE as [es AE]. exists es. rewrite XT, rev_app_distr, map_app, point_events_app, AE, XP, app_nil_r. auto. }
  pose proof (edge_event_tot (Ed := fun a b => a = p /\ b = q) dbg points PP D fuel p q pq L R s PN FU T SX Hq OK Dq Lp (conj eq_refl eq_refl)) as G.
  intro G0. split.
  - intro GF. destruct (G G0 (or_introl GF)) as (x & H1 & H2 & H3). exists x. auto.
  - destruct (convex_below_dec p q) as [CB|CB].
    + rewrite XT. apply Loc_culprit; auto. exists p, q. auto.
    + destruct (G G0) as (x & H1 & H2 & H3); [|apply Loc_good; auto].
      right. apply tame_of; auto; [apply PN|]. intros a b [-> ->]. exact CB.
Qed.

Lemma emit_lc e s : outer e = true -> lc (emit e) s (fun _ s' => (s_tris s' = s_tris s /\ s_front s' = s_front s) /\ s_trace s' = mkCb e (s_tris s) (s_front s) (s_result s) :: s_trace s).
Proof using.
  intros O G0. cbn. split; [eauto 6|]. apply Loc_good. constructor; auto. unfold good_cb. cbn [cb_event]. destruct e; auto; discriminate.
Qed.
Lemma lc_wp {T} (m : M T) s F (R Q : T -> Sweeper -> Prop) : lc m s Q -> wp m s F R -> lc m s (fun x s' => Q x s' /\ R x s').
Proof using.
  intros H K G0. destruct (H G0) as [H1 H2]. split; auto. intro G. destruct (H1 G) as (x & H3 & H4). unfold wp in K. destruct (m s) as [r s']. cbn [fst snd] in *. subst r. exists x. auto.
Qed.
Lemma lc_good {T} (m : M T) s (Q : T -> Sweeper -> Prop) : lc m s Q -> lc m s (fun x s' => Q x s' /\ Good (s_trace s')).
Proof using. intros H G0. destruct (H G0) as [H1 H2]. split; auto. intro G. destruct (H1 G) as (x & H3 & H4). eauto. Qed.

Lemma edges_loop_loc D fuel q pq : planar points -> exact_fills -> Fuel (2 * N + 6 + EB) fuel -> nth_error (ps_points points) q = Some pq -> In q D -> length D <= N ->
  forall ps L R s, TK D (L ++ q :: R) s -> sx (L ++ q :: R) -> (forall p, In p ps -> edge_ok points D p q /\ p < ps_head points) -> at_edges_of q (s_trace s) ->
  lc (edges_loop dbg points fuel q pq ps) s (fun _ s' => exists L R, TK D (L ++ q :: R) s' /\ sx (L ++ q :: R)).
Proof using PP.
  intros PN EF FU Hq Dq LD. induction ps as [|p ps IH]; intros L R s T SX OK AE; cbn [edges_loop]; [apply lc_skip; eauto|]. cbv zeta.
  assert (GE : forall tr e, pres (Grown tr) (Grown tr) (emit e)) by (intros tr e; apply grow_emit, Grown_X).
  assert (GL : forall tr, pres (Grown tr) (Grown tr) (edges_loop dbg points fuel q pq ps)) by (intro tr; apply grow_edges_loop, Grown_X).
  destruct (OK p (or_introl eq_refl)) as [OKp Lp].
  apply lc_bind; [intros b tr; pres_go (Grown_IJ tr); auto|].
  eapply lc_mono; [apply (edge_event_loc D fuel p q pq L R s); auto|]. intros _ s1 ((F1 & G1 & I1 & M1) & _ & AE1). cbv beta.
  apply lc_bind; [intros b tr; auto|].
  eapply lc_mono; [eapply lc_wp; [apply lc_good, emit_lc; reflexivity|apply (emit_edge_inv points D (EvEdge (mkEdge p q)) s1 eq_refl I1)]|].
  - intros ed Q _ _. injection Q as <-. exact M1.
  - intros _ s2 [[[[E1 E2] TR2] G2] I2']. cbv beta in I2'.
    destruct (FP_TK points D q s2 I2' G2 LD) as (L2 & R2 & T2 & SX2).
    { eapply FP_same; [exact F1|unfold vs_of; rewrite E2; auto|rewrite E1; auto]. }
    apply (IH L2 R2); auto; [intros p' Hp'; apply OK; right; auto|].
    destruct AE1 as [es AE1]. exists es. rewrite TR2. cbn [rev]. rewrite map_app, point_events_app, AE1. cbn. rewrite app_nil_r. auto.
Qed.

Lemma sweep_loop_loc fuel : planar points -> exact_fills -> eps_ok points -> Fuel (2 * N + 6 + EB) fuel ->
  forall l D vs s, TK D vs s -> sx vs -> NoDup D -> (forall v, In v D -> v < ps_head points) -> mtodo points D l ->
  lc (sweep_loop dbg points fuel l) s (fun _ _ => True).
Proof using PP.
  intros PN EF EO FU. pose proof (pn_col _ PN) as NC. pose proof (scan_exact_sound points (pn_scan _ PN)) as SC.
  induction l as [|[[id p] es] l IH]; intros D vs s T SX NDD HD ([ND TD] & SS & TC & TO); cbn [sweep_loop]; [apply lc_skip; eauto|].
  destruct (TD _ (or_introl eq_refl)) as (Hp & Nd & Lh). destruct (TO _ (or_introl eq_refl)) as (Hy & Hne). cbn [fst snd] in *.
  inversion ND as [|? ? NI ND']; subst. inversion SS as [|? ? SS' FS]; subst.
  assert (LD : length D < N) by (eapply count_lt; eauto).
  assert (GE : forall tr e, pres (Grown tr) (Grown tr) (emit e)) by (intros tr e; apply grow_emit, Grown_X).
  assert (GP : forall tr, pres (Grown tr) (Grown tr) (point_event dbg points fuel id p)) by (intro tr; apply gr_point_event).
  assert (GL : forall tr ps, pres (Grown tr) (Grown tr) (edges_loop dbg points fuel id p ps)) by (intros tr ps; apply grow_edges_loop, Grown_X).
  assert (GS : forall tr, pres (Grown tr) (Grown tr) (sweep_loop dbg points fuel l)) by (intro tr; apply grow_sweep_loop, Grown_X).
  assert (GV : forall (b : bool) tr, pres (Grown tr) (Grown tr) (if b then bind get_tris (fun ts => bind (lift (verify_triangles dbg points ts)) (fun ok =>
         bind (lift (rassert P_dbg_verify ok)) (fun _ => skip))) else skip)).
  { intros [] tr; pres_go (Grown_IJ tr). }
  apply lc_bind; [intros b tr; pres_go (Grown_IJ tr); auto; apply GV|].
  eapply lc_mono; [eapply lc_wp; [apply lc_good, emit_lc; reflexivity|apply (emit_outer_inv points D (EvEnterPoint id) s eq_refl (tk_inv _ _ _ _ T)); discriminate]|].
  intros _ s1 [[[[E1 E2] _] G1] J1]. cbv beta in J1. assert (T1 : TK D vs s1) by (eapply TK_emit; eauto).
  apply lc_bind; [intros b tr; pres_go (Grown_IJ tr); auto; apply GV|].
  assert (TM : tame points (fun _ _ => False)) by (apply tame_of; auto; intros ? ? []).
  eapply lc_mono; [eapply (lc_tame (fun _ _ => False) _ _ _ TM); apply (point_event_tot (Ed := fun _ _ => False) dbg points PP D fuel id p vs s1); auto; eapply Fuel_down; eauto; lia|].
  intros _ s2 [(L & R & T2 & SX2) _]. cbv beta.
  apply lc_bind; [intros b tr; pres_go (Grown_IJ tr); auto; apply GV|].
  eapply lc_mono; [eapply lc_wp; [apply lc_good, emit_lc; reflexivity|apply (emit_outer_inv points (id :: D) (EvExitPoint id) s2 eq_refl (tk_inv _ _ _ _ T2)); discriminate]|].
  intros _ s3 [[[[E3 E4] TR3] G3] J3]. cbv beta in J3. assert (T3 : TK (id :: D) (L ++ id :: R) s3) by (eapply TK_emit; eauto).
  assert (OK : forall p0, In p0 (edges_list es) -> edge_ok points (id :: D) p0 id /\ p0 < ps_head points).
  { intros p0 Hp0. destruct (Hne p0 Hp0) as (L0 & Y0 & IE). split; auto. split; [intros ->; apply (ylt_irrefl _ Y0)|]. split; [|split; [exact Lh|split; [|exact IE]]].
    - destruct (TC p0 L0) as [Q|[Q|Q]]; [right; auto|left; auto|]. exfalso. apply in_map_iff in Q as (y & <- & Q). rewrite Forall_forall in FS. apply (ylt_asym _ _ Y0 (FS y Q)).
    - intros e [<-|He] Ne; [congruence|]. apply Hy. exact He. }
  assert (AE : at_edges_of id (s_trace s3)).
  { exists (point_events (map cb_event (rev (s_trace s2)))). rewrite TR3. cbn [rev]. rewrite map_app, point_events_app. reflexivity. }
  apply lc_bind; [intros b tr; pres_go (Grown_IJ tr); auto; apply GV|].
  eapply lc_mono; [apply (edges_loop_loc (id :: D) fuel id p PN EF FU Hp (or_introl eq_refl) LD (edges_list es) L R s3 T3 SX2 OK AE)|].
  intros _ s4 (L4 & R4 & T4 & SX4). cbv beta.
  apply lc_bind; [intros b tr; auto|].
  assert (G : forall b : bool, gd (Ed := fun _ _ => False) points (if b then bind get_tris (fun ts => bind (lift (verify_triangles dbg points ts)) (fun ok =>
         bind (lift (rassert P_dbg_verify ok)) (fun _ => skip))) else skip) s4 (fun _ s' => s' = s4)).
  { intros []; [|apply gd_skip; auto]. apply gd_tris. pose proof (tk_K _ _ _ _ T4) as K. eapply gd_lift; [apply (verify_ok dbg points PP); apply K; auto|].
    eapply gd_lift; [reflexivity|]. apply gd_skip. auto. }
  eapply lc_mono; [eapply (lc_tame (fun _ _ => False) _ _ _ TM); apply G|]. intros _ s5 [-> _]. cbv beta.
  apply (IH (id :: D) (L4 ++ id :: R4)); auto.
  - constructor; auto.
  - intros v [<-|Hv]; auto.
  - split; [|split; [exact SS'|split; [|]]].
    + split; auto. intros y Hyl. destruct (TD y (or_intror Hyl)) as (U1 & U2 & U3).
      split; auto. split; auto. intros [Q|Q]; auto. apply NI. rewrite Q. apply (in_map (fun y => fst (fst y)) _ _ Hyl).
    + intros v Lv. destruct (TC v Lv) as [Q|[Q|Q]]; [left; right; auto|left; left; auto|right; auto].
    + intros y Hyl. destruct (TO y (or_intror Hyl)) as (U1 & U2). split; auto. intros e [<-|He]; auto.
      rewrite Forall_forall in FS. apply (FS y Hyl).
Qed.
End S.
