(** * ConvexRun: the convex case in a run *)
From Coq Require Import List Arith Bool Lia ZArith Sorted.
From Verif Require Import Base Num Shape ShapeSpec Utils Points Triangles Front Sweeper Cdt Lists Monad Traverse TraceSpec Grow Exact
  FrontSpec Geom Mesh Rotate Setup Legal Legalize Boundary Chain Remap Attach FrontInv Disc Good Marks Flips LegalTotal Cone Planar Corridor Frames Insert Fills MeshRun FanAll Total FrontSub FillTotal EdgeFill NoCross CorTotal InsertTotal EdgeTotal RunTotal Local Convex.
Import ListNotations.

Section S.
Context {A : Arith} {E : Exact A}.
Variable dbg : bool.
Variable points : Points.
Hypothesis PP : proper points.
Notation N := (npts points).
Notation zc := (zc points).
Notation Kst := (Kst points).
Notation J := (J points).
Notation Good := (Good points).
Notation nid_ok := (nid_ok points).
Notation TK := (TK points).
Notation enough := (enough points).
Notation Fuel := (Fuel points).
Notation sx := (sx points).
Notation EB := (EB points).
Notation FP := (EdgeTotal.FP points).
Notation nb := (nb points).
Notation never := (fun (_ : failure) (_ : Sweeper) => False).

(** the next edge the sweep inserts is p-q, q the upper end: the edges of q are inserted in the order in
    which they are stored, after the exit from q *)
Definition next_edge (w : list event) (p q : nat) : Prop :=
  exists es done rest w0, nth_error (ps_edges points) q = Some es /\ edges_list es = done ++ p :: rest /\
    filter outer w = w0 ++ EvExitPoint q :: map (fun x => EvEdge (mkEdge x q)) done.
(** the front vs, from q on to the right, stays on or above the line q-p, dips below it at v, still left of p,
    and does not turn left there *)
Definition dips (vs : list nat) (p q : nat) : Prop :=
  (fst (zc q) < fst (zc p))%Z /\ exists L X v w R, vs = L ++ (q :: X) ++ v :: w :: R /\
    Forall (fun x => (orient (zc q) (zc x) (zc p) <= 0)%Z) X /\ (0 < orient (zc q) (zc v) (zc p))%Z /\ (fst (zc v) < fst (zc p))%Z /\
    (orient (zc (last X q)) (zc v) (zc w) <= 0)%Z.
Definition unmade (ts : TriangleStore) (p q : nat) : Prop := forall t i j, t < length ts -> tv ts t i = p -> tv ts t j = q -> False.
(** newest callback first *)
Definition trigger (tr : list callback) : Prop :=
  match tr with
  | [] => False
  | cb :: _ => outer (cb_event cb) = true /\ exists p q, next_edge (map cb_event (rev tr)) p q /\ dips (map en_pid (nodes (cb_front cb))) p q /\ unmade (cb_tris cb) p q
  end.
Definition NX (tr : list callback) : Prop := forall l1 l2, tr = l1 ++ l2 -> Good l2 -> trigger l2 -> exists l cb, l1 = l ++ [cb] /\ ~ good_cb points cb.

Lemma edge_event_nb D fuel p q pq L X v w R s : TK D (L ++ (q :: X) ++ v :: w :: R) s -> sx (L ++ (q :: X) ++ v :: w :: R) ->
  nth_error (ps_points points) q = Some pq -> In p D -> p < ps_head points -> q < ps_head points -> (fst (zc q) < fst (zc p))%Z ->
  Forall (fun x => (orient (zc q) (zc x) (zc p) <= 0)%Z) X -> (0 < orient (zc q) (zc v) (zc p))%Z -> (fst (zc v) < fst (zc p))%Z ->
  (orient (zc (last X q)) (zc v) (zc w) <= 0)%Z -> unmade (s_tris s) p q -> 2 * N + 6 <= fuel ->
  nb (edge_event dbg points fuel (mkEdge p q) pq) s.
Proof using PP.
  intros T SX Hq Dp Lp Lq QP HX HV XV CX UM FU.
  assert (Lp' : p < N) by (pose proof (pr_head points PP); lia).
  destruct (pt_fin points PP p Lp') as (pp & Ep & Hp & _).
  assert (GPT : forall tr x, pres (Grown tr) (Grown tr) (put_tris x)) by (intros tr x s0 H; exact H).
  assert (GPF : forall tr x, pres (Grown tr) (Grown tr) (put_front x)) by (intros tr x s0 H; exact H).
  assert (GN : forall tr q, pres (Grown tr) (Grown tr) (node_with_cache q)).
  { intros tr q0. unfold node_with_cache. pres_go (Grown_IJ tr); auto. }
  assert (GP : forall tr fu ep eq ce t p q, pres (Grown tr) (Grown tr) (edge_event_process dbg points fu ep eq ce t p q)).
  { intros tr fu. apply (proj1 (grow_edge_process dbg points _ (Grown_X tr) fu)). }
  assert (GL : forall tr fu l, pres (Grown tr) (Grown tr) (legalize_all dbg points fu l)).
  { intros tr fu l. apply (grow_legalize_all dbg points _ (Grown_X tr)). }
  unfold edge_event. cbn [e_p e_q]. eapply nb_lift; [exact Ep|]. cbv zeta.
  match goal with |- context [fill_edge_event dbg points fuel ?c _] => set (ce := c) end.
  apply nb_quiet. cbn [app] in T. eapply wp_mono; [apply (node_cache_tot points PP D L q (X ++ v :: w :: R) pq s T Hq)|auto|].
  intros nd s1 (RF & T1 & S1 & TR1). cbv beta. split; auto.
  assert (TRI : exists t, nr_tri nd = Some t /\ t < length (s_tris s1)).
  { pose proof (tk_vs _ _ _ _ T1) as TV'. unfold vs_of in TV'. destruct RF as (R1 & R2 & (e & R3 & R4)).
    destruct (X ++ v :: w :: R) as [|w' R'] eqn:EX; [destruct X; discriminate|].
    assert (Z : nth_error (map en_pid (nodes (s_front s1))) (S (length L)) = Some w').
    { rewrite TV'. replace (S (length L)) with (length (L ++ [q])) by (rewrite app_length; simpl; lia). rewrite (app_assoc L [q] (w' :: R') : L ++ q :: w' :: R' = (L ++ [q]) ++ w' :: R'). apply nth_app_mid. }
    apply nth_map in Z as (e2 & Z1 & Z2). rewrite R2 in R3.
    destruct (front_pos points _ _ (k_bnd _ _ _ _ _ _ (tk_K _ _ _ _ T1)) (length L) e e2 R3 Z1) as ([t l] & [LP _] & PE & TP). cbn [fst snd] in *.
    exists t. split; auto. rewrite R4. cbn [to_node nr_tri]. exact TP. }
  destruct TRI as (t1 & ET & Lt1). eapply nb_lift; [rewrite ET; reflexivity|].
  apply nb_quiet. eapply wp_mono; [apply (try_mark_wp points p q t1 s1); [apply (tk_K _ _ _ _ T1)|exact Lt1]|auto|].
  intros [] s2 H; cbv beta iota in H.
  { exfalso. destruct H as (ts' & _ & _ & _ & _ & _ & H). rewrite S1 in Lt1, H. apply H. destruct (edge_index (tri_at (s_tris s) t1) p q) as [i|] eqn:EI; auto.
    exfalso. apply edge_index_some in EI as [[Q1 Q2]|[Q1 Q2]].
    - apply (UM t1 (nxt i) (prv i) Lt1); symmetry; auto.
    - apply (UM t1 (prv i) (nxt i) Lt1); symmetry; auto. }
  destruct H as [-> _]. split; auto.
  destruct (ref_pid points _ (tk_C _ _ _ _ T1) _ _ _ _ RF) as (_ & _ & Q1 & Q2).
  apply nb_bind; [intros b tr; pres_go (Grown_IJ tr); auto|].
  unfold fill_edge_event. change (ce_right ce) with (f_lt (px pq) (px pp)). rewrite (lt_pt points PP q p pq pp Hq Hp), (proj2 (Z.ltb_lt _ _) QP).
  assert (LN : length (L ++ q :: X ++ v :: w :: R) <= 2 * N + 2).
  { pose proof (tk_cnt _ _ _ _ T1). pose proof (tk_D _ _ _ _ T1). lia. }
  repeat (rewrite app_length in LN; cbn [length] in LN).
  assert (SGN : forall x, ht (zc q) (zc p) (zc x) = (- orient (zc q) (zc x) (zc p))%Z) by (intro x; unfold ht; zpts; ring).
  apply (right_above_nb dbg points PP q p pq pp ce Hq Hp eq_refl eq_refl eq_refl Lp QP D Dp X fuel (get_node_id nd) L v w R s1); rewrite ?Q2; auto.
  - lia.
  - apply in_or_app; simpl; auto.
  - constructor; [rewrite SGN; assert (Z0 : orient (zc q) (zc q) (zc p) = 0%Z) by (zpts; ring); lia|].
    eapply Forall_impl; [|exact HX]. cbv beta. intros x Hx. rewrite SGN. lia.
  - rewrite SGN. lia.
Qed.

(** ** traces *)
Definition inner (l : list callback) : Prop := Forall (fun cb => outer (cb_event cb) = false) l.
Lemma split_app {X} (l tr l1 l2 : list X) : l ++ tr = l1 ++ l2 -> (exists x m, l2 = x :: m ++ tr /\ l = l1 ++ x :: m) \/ (exists m, tr = m ++ l2 /\ l1 = l ++ m).
Proof using.
  revert l1. induction l as [|x l IH]; intros l1 H; cbn in H; [right; exists l1; auto|].
  destruct l1 as [|y l1]; cbn in H.
  - left. exists x, l. rewrite <- H. auto.
  - injection H as -> H. destruct (IH l1 H) as [(z & m & -> & ->)|(m & -> & ->)]; [left|right]; [exists z, m; auto|exists m; auto].
Qed.
Lemma NX_bad l tr : ~ Good tr -> NX tr -> NX (l ++ tr).
Proof using.
  intros NG H l1 l2 Q G TR. apply split_app in Q as [(x & m & -> & _)|(m & -> & ->)].
  - exfalso. inversion G as [|? ? _ G']. apply Forall_app in G' as [_ G']. contradiction.
  - destruct (H m l2 eq_refl G TR) as (l' & cb & -> & NB). exists (l ++ l'), cb. rewrite app_assoc. auto.
Qed.
Lemma NX_inner l tr : inner l -> NX tr -> NX (l ++ tr).
Proof using.
  intros IL H l1 l2 Q G TR. apply split_app in Q as [(x & m & -> & ->)|(m & -> & ->)].
  - exfalso. apply Forall_app in IL as [_ IL]. inversion IL as [|? ? IX _]. destruct TR as [TR _]. congruence.
  - destruct (H m l2 eq_refl G TR) as (l' & cb & -> & NB). exists (l ++ l'), cb. rewrite app_assoc. auto.
Qed.
Lemma NX_cons cb tr : ~ trigger (cb :: tr) -> NX tr -> NX (cb :: tr).
Proof using.
  intros NT H l1 l2 Q G TR. destruct l1 as [|x l1]; cbn in Q; [rewrite <- Q in TR; contradiction|]. injection Q as -> Q.
  destruct (H l1 l2 Q G TR) as (l' & cb' & -> & NB). exists (x :: l'), cb'. auto.
Qed.
Lemma NX_edge l cb tr : inner l -> NX tr -> (Good (cb :: tr) -> trigger (cb :: tr) -> exists l' cb', l = l' ++ [cb'] /\ ~ good_cb points cb') -> NX (l ++ cb :: tr).
Proof using.
  intros IL H K l1 l2 Q G TR. apply split_app in Q as [(x & m & -> & ->)|(m & Q & ->)].
  - exfalso. apply Forall_app in IL as [_ IL]. inversion IL as [|? ? IX _]. destruct TR as [TR _]. congruence.
  - destruct m as [|y m]; cbn in Q.
    + rewrite <- Q in G, TR. destruct (K G TR) as (l' & cb' & -> & NB). exists l', cb'. rewrite app_nil_r. auto.
    + injection Q as -> Q. destruct (H m l2 Q G TR) as (l' & cb' & -> & NB). exists (l ++ y :: l'), cb'. rewrite <- app_assoc. auto.
Qed.
Lemma blocks_inner b : blocks b -> Forall (fun e => outer e = false) b.
Proof using.
  induction 1 as [|t body l H1 H2 IH]; constructor; auto. apply Forall_app. split; [|constructor; auto].
  eapply Forall_impl; [|exact H1]. intros []; simpl; tauto.
Qed.
Lemma any_inner s s' : Grown (s_trace s) s' -> Any (evs s) s' -> exists l, s_trace s' = l ++ s_trace s /\ inner l.
Proof using.
  intros [l H] HA. exists l. split; auto.
  assert (EV : evs s' = evs s ++ map cb_event (rev l)) by (unfold evs; rewrite H, rev_app_distr, map_app; reflexivity).
  assert (K : Forall (fun e => outer e = false) (map cb_event (rev l))).
  { destruct HA as [(b & Hb & Q)|(t & b & body & Hb & Hbd & Q)]; rewrite EV in Q; apply app_inv_head in Q; rewrite Q; [apply blocks_inner; auto|].
    apply Forall_app. split; [apply blocks_inner; auto|]. constructor; auto. eapply Forall_impl; [|exact Hbd]. intros []; simpl; tauto. }
  unfold inner. rewrite Forall_forall in *. intros cb Hcb. apply K. apply in_map, in_rev. rewrite rev_involutive. exact Hcb.
Qed.
Lemma out_inner {T} (m : M T) s : grows m -> pres (Out (evs s)) (Any (evs s)) m -> exists l, s_trace (snd (m s)) = l ++ s_trace s /\ inner l.
Proof using.
  intros G O. specialize (G (s_trace s) s (ex_intro _ [] eq_refl)). specialize (O s (ex_intro _ [] (conj blocks_nil (eq_sym (app_nil_r _))))).
  unfold wp in G, O. destruct (m s) as [[x|p|u|] s']; cbn [snd]; apply any_inner; auto. left. exact O.
Qed.
Lemma filter_inner l : inner l -> filter outer (map cb_event l) = [].
Proof using. induction 1 as [|cb l H _ IH]; cbn; auto. rewrite H. auto. Qed.
(** the last exit of a word is unique *)
Lemma exit_unique q q' (d d' : list nat) w w' : w ++ EvExitPoint q :: map (fun x => EvEdge (mkEdge x q)) d = w' ++ EvExitPoint q' :: map (fun x => EvEdge (mkEdge x q')) d' -> q = q' /\ d = d'.
Proof using.
  intro Q. apply split_app in Q as [(x & m & Q & _)|(m & Q & _)].
  - injection Q as _ Q. exfalso. assert (IN : In (EvExitPoint q) (map (fun x => EvEdge (mkEdge x q')) d')) by (rewrite Q; apply in_or_app; simpl; auto).
    apply in_map_iff in IN as (? & ? & _). discriminate.
  - destruct m as [|y m]; cbn in Q; injection Q as Q1 Q.
    + subst q'. split; auto. revert d' Q. induction d as [|x d IH]; intros [|x' d'] Q; try discriminate; auto. injection Q as -> Q. f_equal. auto.
    + exfalso. assert (IN : In (EvExitPoint q') (map (fun x => EvEdge (mkEdge x q)) d)) by (rewrite Q; apply in_or_app; simpl; auto).
      apply in_map_iff in IN as (? & ? & _). discriminate.
Qed.
(** only an exit or an edge event can be followed by an edge *)
Lemma trigger_event cb tr : trigger (cb :: tr) -> exists q, cb_event cb = EvExitPoint q \/ exists p, cb_event cb = EvEdge (mkEdge p q).
Proof using.
  intros (O & p & q & (es & d & rest & w0 & _ & _ & H) & _). exists q. cbn [rev] in H. rewrite map_app, filter_app in H. cbn [map filter] in H. rewrite O in H.
  destruct (app_cases d) as [->|(d' & x & ->)].
  - left. apply app_inj_tail in H as [_ H]. exact H.
  - right. exists x. rewrite map_app in H. cbn [map] in H. change (EvExitPoint q :: ?a ++ ?b) with ((EvExitPoint q :: a) ++ b) in H. rewrite app_assoc in H. apply app_inj_tail in H as [_ H]. exact H.
Qed.

(** ** the logic *)
Definition lx {T} (m : M T) (s : Sweeper) (Q : T -> Sweeper -> Prop) : Prop := Good (s_trace s) ->
  (Good (s_trace (snd (m s))) -> exists x, fst (m s) = Done x /\ Q x (snd (m s))) /\ NX (s_trace (snd (m s))).
Lemma lx_bind {T U} (m : M T) (k : T -> M U) s (Q : U -> Sweeper -> Prop) : (forall x, grows (k x)) ->
  lx m s (fun x s' => NX (s_trace s') -> lx (k x) s' Q) -> lx (bind m k) s Q.
Proof using.
  intros G H G0. destruct (H G0) as [H1 H2]. unfold bind. destruct (m s) as [r s1]. cbn [fst snd] in *.
  destruct (Good_dec points (s_trace s1)) as [G1|G1].
  - destruct (H1 G1) as (x & -> & K). apply K; auto.
  - destruct r as [x|p|u|]; cbn [fst snd]; [|split; [intro; contradiction|exact H2]..].
    pose proof (G x (s_trace s1) s1 (ex_intro _ [] eq_refl)) as GR. unfold wp in GR.
    assert (GR' : Grown (s_trace s1) (snd (k x s1))) by (destruct (k x s1) as [[] s2]; exact GR).
    split; [intro K; destruct G1; eapply Grown_good; eauto|]. destruct GR' as [l ->]. apply NX_bad; auto.
Qed.
Lemma lx_mono {T} (m : M T) s (Q Q' : T -> Sweeper -> Prop) : lx m s Q -> (forall x s', Q x s' -> Q' x s') -> lx m s Q'.
Proof using. intros H K G0. destruct (H G0) as [H1 H2]. split; auto. intro G. destruct (H1 G) as (x & H3 & H4). eauto. Qed.
Lemma lx_skip s (Q : unit -> Sweeper -> Prop) : Q tt s -> NX (s_trace s) -> lx skip s Q.
Proof using. intros H HN G0. split; [intros _; exists tt; auto|exact HN]. Qed.
Definition emitted (e : event) (s : Sweeper) : Sweeper := mkSw (s_tris s) (s_front s) (s_result s) (mkCb e (s_tris s) (s_front s) (s_result s) :: s_trace s).
Lemma lx_emit {U} e (k : unit -> M U) s (Q : U -> Sweeper -> Prop) : outer e = true -> lx (k tt) (emitted e s) Q -> lx (bind (emit e) k) s Q.
Proof using. intros O H G0. apply H. constructor; auto. unfold good_cb. cbn [cb_event]. destruct e; auto; discriminate. Qed.
Lemma lx_gd {T} Ed (m : M T) s (Q : T -> Sweeper -> Prop) : gd (Ed := Ed) points m s Q -> (Good (s_trace s) -> NX (s_trace (snd (m s)))) -> lx m s Q.
Proof using. intros H HN G0. split; auto. intro G. destruct (H G0 (or_introl G)) as (x & H1 & H2 & _). eauto. Qed.

Lemma lx_out {T} (m : M T) s (Q : T -> Sweeper -> Prop) : lx m s Q -> lx m s (fun x s' => Q x s' /\ s' = snd (m s)).
Proof using. intros H G0. destruct (H G0) as [H1 H2]. split; auto. intro G. destruct (H1 G) as (x & H3 & H4). eauto. Qed.

Lemma edges_loop_nx D fuel q pq es : planar points -> Fuel (2 * N + 6 + EB) fuel -> nth_error (ps_points points) q = Some pq -> In q D -> q < ps_head points -> length D <= N ->
  nth_error (ps_edges points) q = Some es ->
  forall ps d L R s cb tr, edges_list es = d ++ ps -> s_trace s = cb :: tr -> cb_front cb = s_front s -> cb_tris cb = s_tris s ->
  (exists w0, filter outer (map cb_event (rev (cb :: tr))) = w0 ++ EvExitPoint q :: map (fun x => EvEdge (mkEdge x q)) d) -> NX tr ->
  TK D (L ++ q :: R) s -> sx (L ++ q :: R) -> (forall p, In p ps -> edge_ok points D p q /\ p < ps_head points) ->
  lx (edges_loop dbg points fuel q pq ps) s (fun _ s' => exists L R, TK D (L ++ q :: R) s' /\ sx (L ++ q :: R)).
Proof using PP.
  intros PN FU Hq Dq Lq LD HE. induction ps as [|p ps IH]; intros d L R s cb tr ED TR CF CT [w0 HO] HN T SX OK; cbn [edges_loop]; cbv zeta.
  - apply lx_skip; eauto. rewrite TR. apply NX_cons; auto. intros (_ & p & q' & (es' & d' & rest & w' & H1 & H2 & H3) & _).
    rewrite HO in H3. apply exit_unique in H3 as [<- <-]. assert (es' = es) by congruence. subst es'. rewrite app_nil_r in ED. rewrite ED in H2.
    apply (f_equal (@length _)) in H2. rewrite app_length in H2. cbn [length] in H2. lia.
  - assert (GE : forall tr e, pres (Grown tr) (Grown tr) (emit e)) by (intros tr0 e; apply grow_emit, Grown_X).
    assert (GL : forall tr, pres (Grown tr) (Grown tr) (edges_loop dbg points fuel q pq ps)) by (intro tr0; apply grow_edges_loop, Grown_X).
    destruct (OK p (or_introl eq_refl)) as [OKp Lp]. pose proof OKp as (NE & Dp & _).
    destruct (out_inner (edge_event dbg points fuel (mkEdge p q) pq) s) as (l & HL & IL).
    { intro tr0. apply grow_edge_event, Grown_X. } { apply edge_event_out. }
    apply lx_bind; [intros b tr0; pres_go (Grown_IJ tr0); auto|].
    eapply lx_mono; [apply lx_out, (lx_gd (fun _ _ => True)); [apply (edge_event_tot dbg points PP D fuel p q pq L R s); auto|]|].
    + intros _. rewrite HL, TR. apply NX_edge; auto. intros _ (_ & p' & q' & (es' & d' & rest & w' & H1 & H2 & H3) & DP & UM).
      rewrite HO in H3. apply exit_unique in H3 as [<- <-]. assert (es' = es) by congruence. subst es'. rewrite ED in H2. apply app_inv_head in H2. injection H2 as <- _.
      destruct DP as (QP & L' & X & v & w & R' & DV & D1 & D2 & D3 & D4). rewrite CF in DV. rewrite CT in UM.
      pose proof (tk_vs _ _ _ _ T) as TV. unfold vs_of in TV. rewrite TV in DV. rewrite DV in T, SX.
      destruct (edge_event_nb D fuel p q pq L' X v w R' s T SX Hq Dp Lp Lq QP D1 D2 D3 D4 UM) as (l' & cb' & K1 & K2).
      { destruct FU as (m & _ & FU). lia. }
      exists l', cb'. split; auto. rewrite HL in K1. change (l' ++ cb' :: s_trace s) with (l' ++ [cb'] ++ s_trace s) in K1. rewrite app_assoc in K1. apply app_inv_tail in K1. exact K1.
    + intros _ s1 ((F1 & G1 & I1 & M1) & ES1) HN1. cbv beta. apply lx_emit; [reflexivity|]. set (e := EvEdge (mkEdge p q)). set (s2 := emitted e s1).
      assert (I2' : Inv points D s2).
      { pose proof (emit_edge_inv points D e s1 eq_refl I1) as W. apply W. intros ed Q _ _. injection Q as <-. exact M1. }
      assert (G2 : Good (s_trace s2)) by (constructor; auto; exact Logic.I).
      destruct (FP_TK points D q s2 I2' G2 LD) as (L2 & R2 & T2 & SX2); [eapply FP_same; [exact F1|reflexivity|reflexivity]|].
      apply (IH (d ++ [p]) L2 R2 s2 (mkCb e (s_tris s1) (s_front s1) (s_result s1)) (s_trace s1)); auto.
      * rewrite <- app_assoc. exact ED.
      * exists w0. cbn [rev]. rewrite map_app, filter_app.
        assert (Q : filter outer (map cb_event (rev (s_trace s1))) = w0 ++ EvExitPoint q :: map (fun x => EvEdge (mkEdge x q)) d).
        { rewrite ES1, HL, rev_app_distr, map_app, filter_app, TR, HO. rewrite (filter_inner (rev l)); [rewrite app_nil_r; auto|]. apply Forall_rev. exact IL. }
        rewrite Q. cbn. rewrite <- app_assoc, map_app. reflexivity.
      * intros p' Hp'. apply OK. right. exact Hp'.
Qed.

Lemma sweep_loop_nx fuel : planar points -> eps_ok points -> Fuel (2 * N + 6 + EB) fuel ->
  forall l D vs s, TK D vs s -> sx vs -> NoDup D -> (forall v, In v D -> v < ps_head points) -> mtodo points D l ->
  (forall y, In y l -> nth_error (ps_edges points) (fst (fst y)) = Some (snd y)) -> NX (s_trace s) ->
  lx (sweep_loop dbg points fuel l) s (fun _ _ => True).
Proof using PP.
  intros PN EO FU. pose proof (pn_col _ PN) as NC. pose proof (scan_exact_sound points (pn_scan _ PN)) as SC.
  induction l as [|[[id p] es] l IH]; intros D vs s T SX NDD HD ([ND TD] & SS & TC & TO) HES HN; cbn [sweep_loop]; [apply lx_skip; eauto|].
  destruct (TD _ (or_introl eq_refl)) as (Hp & Nd & Lh). destruct (TO _ (or_introl eq_refl)) as (Hy & Hne). pose proof (HES _ (or_introl eq_refl)) as HE. cbn [fst snd] in *.
  inversion ND as [|? ? NI ND']; subst. inversion SS as [|? ? SS' FS]; subst.
  assert (LD : length D < N) by (eapply count_lt; eauto).
  assert (GE : forall tr e, pres (Grown tr) (Grown tr) (emit e)) by (intros tr e; apply grow_emit, Grown_X).
  assert (GP : forall tr, pres (Grown tr) (Grown tr) (point_event dbg points fuel id p)) by (intro tr; apply gr_point_event).
  assert (GL : forall tr ps, pres (Grown tr) (Grown tr) (edges_loop dbg points fuel id p ps)) by (intros tr ps; apply grow_edges_loop, Grown_X).
  assert (GS : forall tr, pres (Grown tr) (Grown tr) (sweep_loop dbg points fuel l)) by (intro tr; apply grow_sweep_loop, Grown_X).
  assert (GV : forall (b : bool) tr, pres (Grown tr) (Grown tr) (if b then bind get_tris (fun ts => bind (lift (verify_triangles dbg points ts)) (fun ok =>
         bind (lift (rassert P_dbg_verify ok)) (fun _ => skip))) else skip)).
  { intros [] tr; pres_go (Grown_IJ tr). }
  apply lx_emit; [reflexivity|]. set (s1 := emitted (EvEnterPoint id) s).
  assert (G1 : Good (s_trace s1)) by (constructor; [exact Logic.I|apply (tk_good _ _ _ _ T)]).
  assert (J1 : Inv points D s1).
  { pose proof (emit_outer_inv points D (EvEnterPoint id) s eq_refl (tk_inv _ _ _ _ T)) as W. apply W. discriminate. }
  assert (T1 : TK D vs s1) by (apply (TK_emit points D vs s s1 T J1 G1); reflexivity).
  assert (HN1 : NX (s_trace s1)).
  { apply NX_cons; auto. intro Q. apply trigger_event in Q as (q & [Q|[p' Q]]); discriminate. }
  destruct (out_inner (point_event dbg points fuel id p) s1) as (l1 & HL1 & IL1); [exact GP|apply point_event_out|].
  apply lx_bind; [intros b tr; pres_go (Grown_IJ tr); auto; apply GV|].
  eapply lx_mono; [apply (lx_gd (fun _ _ => True)); [apply (point_event_tot dbg points PP D fuel id p vs s1); auto; eapply Fuel_down; eauto; lia|rewrite HL1; intros _; apply NX_inner; auto]|].
  intros _ s2 (L & R & T2 & SX2) HN2. cbv beta.
  apply lx_emit; [reflexivity|]. set (s3 := emitted (EvExitPoint id) s2).
  assert (G3 : Good (s_trace s3)) by (constructor; [exact Logic.I|apply (tk_good _ _ _ _ T2)]).
  assert (J3 : Inv points (id :: D) s3).
  { pose proof (emit_outer_inv points (id :: D) (EvExitPoint id) s2 eq_refl (tk_inv _ _ _ _ T2)) as W. apply W. discriminate. }
  assert (T3 : TK (id :: D) (L ++ id :: R) s3) by (apply (TK_emit points _ _ s2 s3 T2 J3 G3); reflexivity).
  assert (OK : forall p0, In p0 (edges_list es) -> edge_ok points (id :: D) p0 id /\ p0 < ps_head points).
  { intros p0 Hp0. destruct (Hne p0 Hp0) as (L0 & Y0 & IE). split; auto. split; [intros ->; apply (ylt_irrefl _ Y0)|]. split; [|split; [exact Lh|split; [|exact IE]]].
    - destruct (TC p0 L0) as [Q|[Q|Q]]; [right; auto|left; auto|]. exfalso. apply in_map_iff in Q as (y & <- & Q). rewrite Forall_forall in FS. apply (ylt_asym _ _ Y0 (FS y Q)).
    - intros e [<-|He] Ne; [congruence|]. apply Hy. exact He. }
  apply lx_bind; [intros b tr; pres_go (Grown_IJ tr); auto; apply GV|].
  eapply lx_mono; [apply (edges_loop_nx (id :: D) fuel id p es PN FU Hp (or_introl eq_refl) Lh LD HE (edges_list es) [] L R s3 (mkCb (EvExitPoint id) (s_tris s2) (s_front s2) (s_result s2)) (s_trace s2)); auto|].
  { exists (filter outer (map cb_event (rev (s_trace s2)))). cbn [rev]. rewrite map_app, filter_app. reflexivity. }
  intros _ s4 (L4 & R4 & T4 & SX4) HN4. cbv beta.
  apply lx_bind; [intros b tr; auto|].
  assert (V : forall b : bool, (if b then bind get_tris (fun ts => bind (lift (verify_triangles dbg points ts)) (fun ok =>
         bind (lift (rassert P_dbg_verify ok)) (fun _ => skip))) else skip) s4 = (Done tt, s4)).
  { pose proof (tk_K _ _ _ _ T4) as K. intros []; [|reflexivity]. unfold bind, get_tris, lift. rewrite (verify_ok dbg points PP); [reflexivity|apply K; auto..]. }
  intro G4. rewrite V. cbn [fst snd]. split; [|exact HN4]. intros _. exists tt. split; auto. intros _.
  apply (IH (id :: D) (L4 ++ id :: R4)); auto.
  - constructor; auto.
  - intros v [<-|Hv]; auto.
  - split; [|split; [exact SS'|split; [|]]].
    + split; auto. intros y Hyl. destruct (TD y (or_intror Hyl)) as (U1 & U2 & U3).
      split; auto. split; auto. intros [Q|Q]; auto. apply NI. rewrite Q. apply (in_map (fun y => fst (fst y)) _ _ Hyl).
    + intros v Lv. destruct (TC v Lv) as [Q|[Q|Q]]; [left; right; auto|left; left; auto|right; auto].
    + intros y Hyl. destruct (TO y (or_intror Hyl)) as (U1 & U2). split; auto. intros e [<-|He]; auto.
      rewrite Forall_forall in FS. apply (FS y Hyl).
  - intros y Hyl. apply HES. right. exact Hyl.
Qed.
End S.
