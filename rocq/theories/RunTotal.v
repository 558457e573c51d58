(** * RunTotal: a whole sweep succeeds as long as every filled triangle was
    counter-clockwise when it was created *)
From Coq Require Import List Arith Bool Lia ZArith Permutation Sorted.
From Verif Require Import Base Num Shape ShapeSpec Utils Points Triangles Front Sweeper Cdt Lists Monad Traverse TraceSpec Grow Exact PropsTrace
  FrontSpec Geom Mesh Rotate Setup Legal Legalize Boundary Chain Remap Attach FrontInv Disc Good Marks Flips LegalTotal Cone Planar Corridor Frames Insert Fills MeshRun FanAll Total FrontSub FillTotal EdgeFill NoCross CorTotal InsertTotal EdgeTotal.
Import ListNotations.

Section S.
Context {A : Arith} {E : Exact A}.
Variable dbg : bool.
Variable points : Points.
Hypothesis PP : proper points.
Notation N := (npts points).
Notation zc := (zc points).
Notation Kst := (Kst points).
Notation J := (J points).
Notation Good := (Good points).
Context {Ed : nat -> nat -> Prop}.
Notation gd := (gd (Ed:=Ed) points).
Notation TK := (TK points).
Notation Fuel := (Fuel points).
Notation sx := (sx points).
Notation EB := (EB points).
Notation FP := (EdgeTotal.FP points).

(** ** the debug check of the whole mesh passes *)
Lemma verify_ok ts : mesh N zc ts -> delaunay_but zc [] ts -> flags_agree ts -> verify_triangles dbg points ts = Done true.
Proof using PP.
  intros M DB FA.
  assert (LE : forall a i, a < length ts -> is_legal_edge dbg points ts (Some a) i = Done None).
  { intros a i La. unfold is_legal_edge. rewrite ts_get_at' by auto. cbn [rbind]. change (get3 (t_neighbors (tri_at ts a)) i) with (tn ts a i).
    destruct (tn ts a i) as [b|] eqn:En; [|reflexivity].
    destruct (m_adj M a i b La En) as [j PR]. pose proof PR as (_ & Lb & _ & _ & O1 & O2).
    unfold ts_get, get_unchecked. rewrite nth_error_at by auto. cbn [rbind].
    assert (Da : distinct (tri_at ts a)) by apply (mesh_dist M La). assert (Db : distinct (tri_at ts b)) by apply (mesh_dist M Lb).
    change (get3 (t_points (tri_at ts a)) i) with (V (tri_at ts a) i).
    rewrite (opposite_point_V (tri_at ts a) (tri_at ts b) i j Da Db O2). cbn [rbind].
    rewrite (point_index_V _ _ Db). cbn [unwrap rbind]. change (tri_is_constrained (tri_at ts b) j) with (tc ts b j).
    destruct (tc ts b j) eqn:Ec; [reflexivity|].
    assert (R1 : V (tri_at ts a) i < N) by (apply (m_range M); auto).
    assert (R2 : V (tri_at ts a) (nxt i) < N) by (apply (m_range M); auto).
    assert (R3 : V (tri_at ts a) (prv i) < N) by (apply (m_range M); auto).
    assert (R4 : V (tri_at ts b) j < N) by (apply (m_range M); auto).
    destruct (pt_fin points PP _ R1) as (pa & Pa & _ & Fa & Za). destruct (pt_fin points PP _ R2) as (pb & Pb & _ & Fb & Zb).
    destruct (pt_fin points PP _ R3) as (pc & Pc & _ & Fc & Zc_). destruct (pt_fin points PP _ R4) as (pd & Pd & _ & Fd & Zd).
    rewrite Pa. cbn [rbind]. rewrite (point_ccw_V _ _ Da). cbn [rbind]. rewrite Pb. cbn [rbind].
    rewrite (point_cw_V _ _ Da). cbn [rbind]. rewrite Pc. cbn [rbind]. rewrite Pd. cbn [rbind].
    rewrite in_circle_exact by auto. rewrite Za, Zb, Zc_, Zd.
    change (incircle (zc (V (tri_at ts a) i)) (zc (V (tri_at ts a) (nxt i))) (zc (V (tri_at ts a) (prv i))) (zc (V (tri_at ts b) j)))
      with (inc zc ts (a, i) (b, j)).
    destruct (Z.ltb_spec 0 (inc zc ts (a, i) (b, j))) as [Hp|Hp]; [|reflexivity].
    exfalso. assert (BD : bad zc ts (a, i) (b, j)).
    { split; [exact PR|]. split; [unfold ptc; cbn [fst snd]; rewrite (FA a i b j PR); exact Ec|]. split; [exact Ec|exact Hp]. }
    destruct (DB _ _ BD) as [[]|[]]. }
  assert (IL : forall l, (forall a, In a l -> a < length ts) -> illegal_loop dbg points ts l = Done []).
  { induction l as [|a l IH]; intro H; [reflexivity|]. cbn [illegal_loop]. unfold is_legalize, ix_all. cbn [mapM].
    rewrite !LE by (apply H; left; auto). cbn [rbind]. rewrite IH by (intros; apply H; right; auto). reflexivity. }
  unfold verify_triangles, illegal_triangles. rewrite IL; [reflexivity|]. intros a Ha. apply in_seq in Ha. lia.
Qed.

(** ** the edges of a point *)
Lemma FP_TK D q s : Inv points D s -> Good (s_trace s) -> length D <= N -> FP D q s -> exists L R, TK D (L ++ q :: R) s /\ sx (L ++ q :: R).
Proof using. intros HI HG LD (L & R & H1 & H2 & H3 & H4). exists L, R. split; auto. constructor; auto. Qed.

Lemma emit_gd e s : outer e = true -> gd (emit e) s (fun _ s' => s_tris s' = s_tris s /\ s_front s' = s_front s).
Proof using. intro O. apply gd_of_wp, wp_emit. split; auto. cbn [s_trace]. intro G. constructor; auto. unfold good_cb. cbn [cb_event]. destruct e; auto; discriminate. Qed.
Lemma TK_emit D vs s s' : TK D vs s -> Inv points D s' -> Good (s_trace s') -> s_tris s' = s_tris s -> s_front s' = s_front s -> TK D vs s'.
Proof using. intros [T1 T2 T3 T4 T5 T6] HI HG E1 E2. constructor; auto; [unfold vs_of in *; rewrite E2; auto|rewrite E1; auto]. Qed.

Lemma edges_loop_tot D fuel q pq : planar points -> Fuel (2 * N + 6 + EB) fuel -> nth_error (ps_points points) q = Some pq -> In q D -> length D <= N ->
  forall ps L R s, TK D (L ++ q :: R) s -> sx (L ++ q :: R) -> (forall p, In p ps -> edge_ok points D p q /\ p < ps_head points) -> (forall p, In p ps -> Ed p q) ->
  gd (edges_loop dbg points fuel q pq ps) s (fun _ s' => exists L R, TK D (L ++ q :: R) s' /\ sx (L ++ q :: R)).
Proof using PP.
  intros PN FU Hq Dq LD. induction ps as [|p ps IH]; intros L R s T SX OK OE; cbn [edges_loop]; [apply gd_skip; eauto|]. cbv zeta.
  assert (GE : forall tr e, pres (Grown tr) (Grown tr) (emit e)) by (intros tr e; apply grow_emit, Grown_X).
  assert (GL : forall tr, pres (Grown tr) (Grown tr) (edges_loop dbg points fuel q pq ps)) by (intro tr; apply grow_edges_loop, Grown_X).
  destruct (OK p (or_introl eq_refl)) as [OKp Lp].
  apply gd_bind; [intros b tr; pres_go (Grown_IJ tr); auto|].
  eapply gd_mono; [apply (edge_event_tot dbg points PP D fuel p q pq L R s); auto; apply OE; left; auto|]. intros _ s1 (F1 & G1 & I1 & M1). cbv beta.
  apply gd_bind; [intros b tr; auto|].
  eapply gd_mono; [eapply gd_wp; [apply gd_good, emit_gd; reflexivity|apply (emit_edge_inv points D (EvEdge (mkEdge p q)) s1 eq_refl I1)]|].
  - intros ed Q _ _. injection Q as <-. exact M1.
  - intros _ s2 [[[E1 E2] G2] I2']. cbv beta in I2'.
    destruct (FP_TK D q s2 I2' G2 LD) as (L2 & R2 & T2 & SX2).
    { eapply FP_same; [exact F1|unfold vs_of; rewrite E2; auto|rewrite E1; auto]. }
    apply (IH L2 R2); auto; intros p' Hp'; [apply OK|apply OE]; right; auto.
Qed.

(** ** the sweep *)
Lemma count_lt D id : NoDup D -> (forall v, In v D -> v < ps_head points) -> ~ In id D -> id < ps_head points -> length D < N.
Proof using PP.
  intros ND HD NI LI. pose proof (pr_head points PP) as PH.
  assert (H : length (id :: D) <= length (seq 0 (ps_head points))).
  { apply NoDup_incl_length; [constructor; auto|]. intros v [<-|Hv]; apply in_seq; [lia|]. specialize (HD v Hv). lia. }
  rewrite seq_length in H. cbn [length] in H. lia.
Qed.

Lemma sweep_loop_tot fuel : (forall p q, input_edge points p q -> Ed p q) -> planar points -> eps_ok points -> Fuel (2 * N + 6 + EB) fuel ->
  forall l D vs s, TK D vs s -> sx vs -> NoDup D -> (forall v, In v D -> v < ps_head points) -> mtodo points D l ->
  gd (sweep_loop dbg points fuel l) s (fun _ s' => exists D' vs', TK D' vs' s').
Proof using PP.
  intros OE PN EO FU. pose proof (pn_col _ PN) as NC. pose proof (scan_exact_sound points (pn_scan _ PN)) as SC.
  induction l as [|[[id p] es] l IH]; intros D vs s T SX NDD HD ([ND TD] & SS & TC & TO); cbn [sweep_loop]; [apply gd_skip; eauto|].
  destruct (TD _ (or_introl eq_refl)) as (Hp & Nd & Lh). destruct (TO _ (or_introl eq_refl)) as (Hy & Hne). cbn [fst snd] in *.
  inversion ND as [|? ? NI ND']; subst. inversion SS as [|? ? SS' FS]; subst.
  assert (LD : length D < N) by (eapply count_lt; eauto).
  assert (GE : forall tr e, pres (Grown tr) (Grown tr) (emit e)) by (intros tr e; apply grow_emit, Grown_X).
  assert (GP : forall tr, pres (Grown tr) (Grown tr) (point_event dbg points fuel id p)) by (intro tr; apply gr_point_event).
  assert (GL : forall tr ps, pres (Grown tr) (Grown tr) (edges_loop dbg points fuel id p ps)) by (intros tr ps; apply grow_edges_loop, Grown_X).
  assert (GS : forall tr, pres (Grown tr) (Grown tr) (sweep_loop dbg points fuel l)) by (intro tr; apply grow_sweep_loop, Grown_X).
  assert (GV : forall (b : bool) tr, pres (Grown tr) (Grown tr) (if b then bind get_tris (fun ts => bind (lift (verify_triangles dbg points ts)) (fun ok =>
         bind (lift (rassert P_dbg_verify ok)) (fun _ => skip))) else skip)).
  { intros [] tr; pres_go (Grown_IJ tr). }
  apply gd_bind; [intros b tr; pres_go (Grown_IJ tr); auto; apply GV|].
  eapply gd_mono; [eapply gd_wp; [apply gd_good, emit_gd; reflexivity|apply (emit_outer_inv points D (EvEnterPoint id) s eq_refl (tk_inv _ _ _ _ T)); discriminate]|].
  intros _ s1 [[[E1 E2] G1] J1]. cbv beta in J1. assert (T1 : TK D vs s1) by (eapply TK_emit; eauto).
  apply gd_bind; [intros b tr; pres_go (Grown_IJ tr); auto; apply GV|].
  eapply gd_mono; [apply (point_event_tot dbg points PP D fuel id p vs s1); auto; eapply Fuel_down; eauto; lia|].
  intros _ s2 (L & R & T2 & SX2). cbv beta.
  apply gd_bind; [intros b tr; pres_go (Grown_IJ tr); auto; apply GV|].
  eapply gd_mono; [eapply gd_wp; [apply gd_good, emit_gd; reflexivity|apply (emit_outer_inv points (id :: D) (EvExitPoint id) s2 eq_refl (tk_inv _ _ _ _ T2)); discriminate]|].
  intros _ s3 [[[E3 E4] G3] J3]. cbv beta in J3. assert (T3 : TK (id :: D) (L ++ id :: R) s3) by (eapply TK_emit; eauto).
  assert (OK : forall p0, In p0 (edges_list es) -> edge_ok points (id :: D) p0 id /\ p0 < ps_head points).
  { intros p0 Hp0. destruct (Hne p0 Hp0) as (L0 & Y0 & IE). split; auto. split; [intros ->; apply (ylt_irrefl _ Y0)|]. split; [|split; [exact Lh|split; [|exact IE]]].
    - destruct (TC p0 L0) as [Q|[Q|Q]]; [right; auto|left; auto|]. exfalso. apply in_map_iff in Q as (y & <- & Q). rewrite Forall_forall in FS. apply (ylt_asym _ _ Y0 (FS y Q)).
    - intros e [<-|He] Ne; [congruence|]. apply Hy. exact He. }
  apply gd_bind; [intros b tr; pres_go (Grown_IJ tr); auto; apply GV|].
  eapply gd_mono; [apply (edges_loop_tot (id :: D) fuel id p PN FU Hp (or_introl eq_refl) LD (edges_list es) L R s3 T3 SX2 OK ltac:(intros p0 Hp0; apply OE; apply (OK p0 Hp0)))|].
  intros _ s4 (L4 & R4 & T4 & SX4). cbv beta.
  apply gd_bind; [intros b tr; auto|].
  assert (G : forall b : bool, gd (if b then bind get_tris (fun ts => bind (lift (verify_triangles dbg points ts)) (fun ok =>
         bind (lift (rassert P_dbg_verify ok)) (fun _ => skip))) else skip) s4 (fun _ s' => s' = s4)).
  { intros []; [|apply gd_skip; auto]. apply gd_tris. pose proof (tk_K _ _ _ _ T4) as K. eapply gd_lift; [apply verify_ok; apply K; auto|].
    eapply gd_lift; [reflexivity|]. apply gd_skip. auto. }
  eapply gd_mono; [apply G|]. intros _ s5 ->. cbv beta.
  apply (IH (id :: D) (L4 ++ id :: R4)); auto.
  - constructor; auto.
  - intros v [<-|Hv]; auto.
  - split; [|split; [exact SS'|split; [|]]].
    + split; auto. intros y Hyl. destruct (TD y (or_intror Hyl)) as (U1 & U2 & U3).
      split; auto. split; auto. intros [Q|Q]; auto. apply NI. rewrite Q. apply (in_map (fun y => fst (fst y)) _ _ Hyl).
    + intros v Lv. destruct (TC v Lv) as [Q|[Q|Q]]; [left; right; auto|left; left; auto|right; auto].
    + intros y Hyl. destruct (TO y (or_intror Hyl)) as (U1 & U2). split; auto. intros e [<-|He]; auto.
      rewrite Forall_forall in FS. apply (FS y Hyl).
Qed.
End S.
