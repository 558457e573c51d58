(** * Fills: filling and point insertion on a consistent mesh *)
From Coq Require Import List Arith Bool Lia ZArith.
From Verif Require Import Base Num Shape ShapeSpec Utils Points Triangles Front Sweeper Cdt F64 Lists Monad Traverse TraceSpec Grow Exact
  FrontSpec Geom Mesh Rotate Setup Legal Legalize Boundary Chain Remap Attach FrontInv Disc Good Marks Flips Cone Planar Corridor Frames Insert.
Import ListNotations.

Section S.
Context {A : Arith} {E : Exact A}.
Variable dbg : bool.
Variable points : Points.
Hypothesis PP : proper points.
Notation N := (npts points).
Notation zc := (zc points).
Notation bnd := (boundary (ps_head points) (ps_tail points)).
Notation Kst := (Kst points).
Notation J := (J points).
Notation Good := (Good points).
Notation nocol := (nocol points).
Notation NG := (NG points).
Notation within := (within points).

(** between two operations; the list has the edges marked so far *)
Definition MK (L : list Edge) (ts : TriangleStore) : Prop := planar points -> marks_are L ts /\ Forall (fun e => input_edge points (e_p e) (e_q e)) L.
Definition InvM (D : list nat) (L : list Edge) (s : Sweeper) : Prop :=
  J s /\ (Good (s_trace s) -> Kst D [] [] (s_tris s) (s_front s)) /\ (Good (s_trace s) -> MK L (s_tris s)).
Definition Inv (D : list nat) (s : Sweeper) : Prop := InvM D (edges_of (s_trace s)) s.
Lemma Inv_J D s : Inv D s -> J s. Proof using. intros H; apply H. Qed.
Lemma NG_InvM D L s : NG s -> InvM D L s. Proof using. intros [H1 H2]. split; auto. split; contradiction. Qed.
Lemma NG_Inv D s : NG s -> Inv D s. Proof using. apply NG_InvM. Qed.
Lemma NG_J s : NG s -> J s. Proof using. intros [_ H]. exact H. Qed.
Lemma case_good D s : Inv D s -> NG s \/ (J s /\ Good (s_trace s) /\ Kst D [] [] (s_tris s) (s_front s) /\ MK (edges_of (s_trace s)) (s_tris s)).
Proof using. intros (H1 & H2 & H3). destruct (Good_dec points (s_trace s)); [right|left; split]; auto. Qed.
Lemma MK_same L ts ts' : (nocol -> same_marks ts ts') -> MK L ts -> MK L ts'.
Proof using. intros H K PN. destruct (K PN) as [K1 K2]. split; auto. eapply marks_same; eauto. apply H. apply PN. Qed.
(** lift a run that starts after a bad triangle *)
Lemma ng_wp {T} D L (m : M T) s (Q : T -> Sweeper -> Prop) : pres NG NG m -> NG s -> (forall x s', NG s' -> Q x s') ->
  wp m s (fun _ => J) (fun x s' => InvM D (L s') s' /\ Q x s').
Proof using. intros P H HQ. eapply wp_mono; [apply (P s H)|intros; apply NG_J; auto|]. intros x s' Hn. split; [apply NG_InvM; auto|]. apply HQ. exact Hn. Qed.
Lemma ng_wp' {T} D (m : M T) s : pres NG NG m -> NG s -> wp m s (fun _ => J) (fun _ s' => Inv D s').
Proof using. intros P H. eapply wp_mono; [apply (P s H)|intros; apply NG_J; auto|]. intros x s' Hn. apply NG_Inv; auto. Qed.

Lemma mark_tv ts l r ts' : mark_neighbor dbg ts l r = Done ts' -> length ts' = length ts /\ forall c k, tv ts' c k = tv ts c k.
Proof using.
  intro H. split; [eapply mark_length; eauto|]. unfold mark_neighbor in H. destruct (rassert _ _) as [u0| | |]; try discriminate. cbn [rbind] in H. unfold mark_neighbor_cells in H.
  destruct (ts_get_unchecked_at dbg U_triangle_raw ts l) as [lt| | |] eqn:E1; try discriminate. cbn [rbind] in H.
  destruct (ts_get_unchecked_at dbg U_triangle_raw ts r) as [rt| | |] eqn:E2; try discriminate. cbn [rbind] in H.
  apply not_valid in E1 as (a & -> & La & ->). apply not_valid in E2 as (b & -> & Lb & ->).
  destruct (mark_neighbor_for_two_mut dbg (Some a) (Some b) (tri_at ts a) (tri_at ts b)) as [[t1 t2]| | |] eqn:E3; try discriminate. cbn [rbind] in H. injection H as <-.
  assert (X : t_points t1 = t_points (tri_at ts a) /\ t_points t2 = t_points (tri_at ts b)).
  { unfold mark_neighbor_for_two_mut in E3. destruct (common_edge_index _ _) as [[i j]|]; [|destruct dbg; [discriminate|]]; injection E3 as <- <-; auto. }
  intros c k. cbn [ts_put]. unfold tv, V. rewrite tri_at_set by (rewrite list_set_length; auto). rewrite tri_at_set by auto.
  destruct (Nat.eqb_spec b c) as [<-|]; [rewrite (proj2 X); auto|]. destruct (Nat.eqb_spec a c) as [<-|]; [rewrite (proj1 X); auto|]. auto.
Qed.

(** legalization of a triangle that was not counter-clockwise when added *)
Lemma legalize_bad fuel a s : J s -> S a = length (s_tris s) -> ~ tccw zc (s_tris s) a ->
  wp (legalize dbg points fuel (Some a)) s (fun _ => J) (fun _ => NG).
Proof using.
  intros HJ L NC. unfold legalize. apply wp_bind, wp_emit.
  eapply wp_mono; [apply (grow_rest dbg points NG)|intros; apply NG_J; auto|auto].
  - intros s1 s2 l0 HE HN. eapply NG_grow; eauto.
  - assert (NGd : ~ Good (mkCb (EvWillLegalize (Some a)) (s_tris s) (s_front s) (s_result s) :: s_trace s)).
    { intro G. inversion G as [|? ? G1 G2]; subst. apply NC. apply G1. exact L. }
    split; [exact NGd|]. unfold Good.J. cbn [s_trace gclaims]. split; [intro; contradiction|exact HJ].
Qed.

Lemma grow_NG : forall s s' l, s_trace s' = l ++ s_trace s -> NG s -> NG s'.
Proof using. intros s s' l H. apply NG_grow with l. exact H. Qed.

Lemma links_two t P Q R S : links t [(P, Q); (R, S)] = link (link t (fst P) (snd P) (fst Q) (snd Q)) (fst R) (snd R) (fst S) (snd S).
Proof using. destruct P, Q, R, S. reflexivity. Qed.
Lemma links_one t P Q : links t [(P, Q)] = link t (fst P) (snd P) (fst Q) (snd Q).
Proof using. destruct P, Q. reflexivity. Qed.

Lemma fill_one_inv D fuel id : pres (Inv D) J (fill_one dbg points fuel id).
Proof using PP.
  intros s Hs. destruct (case_good D s Hs) as [HN|(HJ & HG & K & MR)].
  { apply ng_wp'; auto. apply grow_fill_one. apply grow_NG. }
  unfold fill_one. set (ts := s_tris s) in *. set (ns := nodes (s_front s)) in *.
  apply wp_bind, wp_get_front. apply wp_try; [auto|]. intros o Ho. apply wp_try; [auto|]. intros node Hn.
  apply wp_try; [auto|]. intros op Hp.
  destruct op as [prev|]; [|apply wp_ret; exact Hs].
  destruct (next_node (s_front s) node) as [next|] eqn:Hx; [|apply wp_ret; exact Hs].
  cbv zeta. apply wp_bind, wp_get_tris. fold ts. cbn [ts_insert].
  apply wp_try; [auto|]. intros pt_ Ept. apply wp_try; [auto|]. intros ts1 H1.
  apply wp_try; [auto|]. intros nt_ Ent. apply wp_try; [auto|]. intros ts2 H2.
  (* the three nodes *)
  assert (Gn : nth_error ns (nr_index node) = Some (mkEntry (nr_point node) (nr_pid node) (nr_tri node))).
  { destruct o as [nd|]; [|discriminate]. injection Hn as ->. unfold get_node_with_id in Ho.
    destruct (resolve_index_for_id (s_front s) id) as [i|i]; [|discriminate]. unfold get_unchecked in Ho. fold ns in Ho.
    destruct (nth_error ns i) as [e|] eqn:Ei; [|discriminate]. cbn [rbind] in Ho. injection Ho as <-.
    cbn [to_node nr_index nr_point nr_pid nr_tri]. rewrite Ei. destruct e; reflexivity. }
  assert (Gp : nr_index node = S (nr_index prev) /\ nth_error ns (nr_index prev) = Some (mkEntry (nr_point prev) (nr_pid prev) (nr_tri prev))).
  { unfold prev_node in Hp. destruct (nr_index node) as [|j]; [discriminate|]. unfold get_unchecked in Hp. fold ns in Hp.
    destruct (nth_error ns j) as [e|] eqn:Ei; [|discriminate]. cbn [rbind] in Hp. injection Hp as <-.
    cbn [to_node nr_index nr_point nr_pid nr_tri]. split; auto. rewrite Ei. destruct e; reflexivity. }
  assert (Gx : nth_error ns (S (nr_index node)) = Some (mkEntry (nr_point next) (nr_pid next) (nr_tri next))).
  { unfold next_node in Hx. rewrite Nat.add_1_r in Hx. fold ns in Hx. destruct (S (nr_index node) <? length ns); [|discriminate].
    destruct (nth_error ns (S (nr_index node))) as [e|] eqn:Ei; [|discriminate]. injection Hx as <-. cbn [to_node nr_index nr_point nr_pid nr_tri]. destruct e; reflexivity. }
  destruct Gp as [Gi Gp]. rewrite Gi in Gn, Gx. set (k := nr_index prev) in *.
  set (ep := mkEntry (nr_point prev) (nr_pid prev) (nr_tri prev)) in *.
  set (en := mkEntry (nr_point node) (nr_pid node) (nr_tri node)) in *.
  set (ex := mkEntry (nr_point next) (nr_pid next) (nr_tri next)) in *.
  pose proof K as [M DF DB B FO W AG DI]. pose proof (proj1 FO) as C. fold ns in B, W.
  destruct (front_pos points ts ns B k ep en Gp Gn) as (P1 & B1 & E1 & T1).
  destruct (front_pos points ts ns B (S k) en ex Gn Gx) as (P2 & B2 & E2 & T2).
  cbn [en_tri ep en] in T1, T2. rewrite T1 in Ept. injection Ept as <-. rewrite T2 in Ent. injection Ent as <-.
  destruct (mark_tv _ _ _ _ H1) as [L1 V1]. destruct (mark_tv _ _ _ _ H2) as [L2 V2].
  assert (LN : length ts2 = S (length ts)) by (rewrite L2, L1, app_length; simpl; lia).
  apply wp_bind, wp_put_tris. cbn [s_tris s_front s_result s_trace].
  apply wp_bind, wp_lift.
  destruct (update_and_delete_by_index dbg (s_front s) k (nr_pid prev) (Some (length ts)) (nr_index node)) as [af| | |] eqn:Hu;
    cbn [okr]; try exact HJ.
  apply wp_bind, wp_put_front. cbn [s_tris s_front s_result s_trace].
  assert (Eaf : af = mkFront (fill_nodes ts ns k ep) None).
  { unfold update_and_delete_by_index in Hu. fold ns in Hu. rewrite Gp in Hu.
    destruct (if dbg then _ else _) in Hu; try discriminate. cbn [rbind unwrap] in Hu.
    destruct (if dbg then _ else _) in Hu; try discriminate. cbn [rbind unwrap] in Hu.
    destruct (rassert _ _) in Hu; try discriminate. cbn [rbind] in Hu. unfold fill_nodes. rewrite <- Gi. congruence. }
  assert (VN : tv ts2 (length ts) I0 = nr_pid prev /\ tv ts2 (length ts) I1 = nr_pid node /\ tv ts2 (length ts) I2 = nr_pid next).
  { rewrite !V2, !V1. unfold tv. rewrite t1_new. auto. }
  destruct (Z_lt_dec 0 (orient (zc (nr_pid prev)) (zc (nr_pid node)) (zc (nr_pid next)))) as [CC|NCC].
  2:{ apply wp_bind. eapply wp_mono; [apply legalize_bad; auto|auto|].
      - unfold tccw, ccw3. cbn [s_tris]. destruct VN as (-> & -> & ->). exact NCC.
      - intros ? s' Hn'. apply wp_ret. apply NG_Inv. exact Hn'. }
  change (ccw3 zc (en_pid ep) (en_pid en) (en_pid ex)) in CC.
  pose proof (fill_linkable points ts ns C k ep en ex P1 P2 Gp Gn Gx B1 E1 B2 E2) as FL.
  pose proof (fill_opp ts ep en ex P1 P2 B1 E1 B2 E2) as FOp.
  pose proof (fill_range points ns C k ep en ex Gp Gn Gx) as FR.
  pose proof (fill_mesh points ts ns M C k ep en ex P1 P2 Gp Gn Gx B1 E1 B2 E2 CC) as FM.
  pose proof (fill_boundary points ts ns M C B k ep en ex P1 P2 Gp Gn Gx B1 E1 B2 E2 CC) as FB.
  set (t1 := ts ++ [tri_new (nr_pid prev) (nr_pid node) (nr_pid next)]) in *.
  assert (Lt1 : length t1 = S (length ts)) by (unfold t1; rewrite app_length; simpl; lia).
  assert (TC : forall c, c < S (length ts) -> tccw zc t1 c).
  { intros c Lc. destruct (Nat.eq_dec c (length ts)) as [->|Ne]; unfold tccw, tv, t1.
    - rewrite t1_new. exact CC.
    - rewrite t1_old by lia. apply (m_ccw M). lia. }
  assert (LP1 : fst P1 < length ts) by apply B1. assert (LP2 : fst P2 < length ts) by apply B2.
  assert (G0 : length ts < S (length ts)) by auto.
  assert (G1 : forall c, c < S (length ts) -> c < length t1) by (intros c Lc; rewrite Lt1; exact Lc).
  assert (G2 : forall c, c < length ts -> c < S (length ts)) by (intros; lia).
  assert (G3 : forall c, c < S (length ts) -> c < length ts1) by (intros c Lc; rewrite L1; apply (G1 c Lc)).
  assert (X1 : ts1 = link t1 (length ts) I2 (fst P1) (snd P1)).
  { destruct (FOp _ _ (or_introl eq_refl)) as [O1 _]. cbn [fst snd] in O1.
    assert (Q := mark_ok (zc := zc) dbg (ts := t1) (a := length ts) (i := I2) (b := fst P1) (j := snd P1) (G1 _ G0) (G1 _ (G2 _ LP1)) (TC _ G0) (TC _ (G2 _ LP1)) O1).
    rewrite Q in H1. congruence. }
  assert (X2 : ts2 = filled ts ep en ex P1 P2).
  { destruct (FOp _ _ (or_intror (or_introl eq_refl))) as [O1 _]. cbn [fst snd] in O1.
    assert (TC' : forall c, c < S (length ts) -> tccw zc ts1 c) by (intros c Lc; unfold tccw; rewrite !V1; apply (TC c Lc)).
    assert (O1' : opposed ts1 (length ts) I0 (fst P2) (snd P2)) by (unfold opposed; rewrite !V1; exact O1).
    assert (Q := mark_ok (zc := zc) dbg (ts := ts1) (a := length ts) (i := I0) (b := fst P2) (j := snd P2) (G3 _ G0) (G3 _ (G2 _ LP2)) (TC' _ G0) (TC' _ (G2 _ LP2)) O1').
    rewrite Q in H2. injection H2 as <-. rewrite X1. unfold filled, fill_links. rewrite links_two. reflexivity. }
  assert (Hn' : nth_error (list_set ns k (set_tri ep (Some (length ts)))) (S k) = Some en) by (rewrite nth_error_list_set_ne; auto).
  assert (C1 : chain points (list_set ns k (set_tri ep (Some (length ts))))) by (apply set_tri_chain; auto; discriminate).
  assert (LX := nth_error_lt _ _ _ Gx).
  assert (C2 : chain points (fill_nodes ts ns k ep)) by (apply remove_chain; auto; rewrite ?list_set_length; lia).
  assert (K' : Kst D [] [length ts] ts2 af).
  { subst ts2 af. constructor; cbn [nodes]; auto.
    - apply (at_dflags N zc ts _ _ _ (fill_links ts P1 P2) M CC FR FL FOp DF).
    - apply (at_delaunay N zc ts _ _ _ (fill_links ts P1 P2) M CC FR FL FOp [] DB).
    - split; [exact C2|exact I].
    - intros j e' Hj. rewrite (fill_nodes_nth points ts ns C k ep en ex Gp Gn Gx) in Hj. destruct (j <? S k); [|apply (W _ _ Hj)].
      destruct (j =? k); [|apply (W _ _ Hj)]. injection Hj as <-. apply (W _ _ Gp).
    - intro NC. apply (at_agree N zc ts _ _ _ (fill_links ts P1 P2) M CC FR FL FOp). apply AG. exact NC.
    - apply (disc_fill points ts ns M C B D k ep en ex P1 P2); auto. apply (mesh_unique points PP _ _ _ FM C2 FB). }
  apply wp_bind. eapply wp_mono; [apply (legalize_K dbg points PP fuel (length ts) _ D []); cbn [s_tris s_front s_trace]; auto|..].
  - lia.
  - destruct K' as [K1 K2 K3 K4 K5 K6 K7 K8]. constructor; auto. eapply bnd_weaken; [exact K4|]. intros ? [].
  - intros f s' [HJ' _]. exact HJ'.
  - intros ? s' (HJ' & HG' & K'' & _ & _ & KE & EE). apply wp_ret. split; auto. split; auto. intros _. cbn [s_tris s_trace] in *. rewrite EE.
    eapply MK_same; [|exact MR]. intro NC. destruct (KE NC) as [KE1 KE2]. eapply same_marks_trans; [|apply keeps_same; eauto].
    rewrite X2. apply (at_marks N zc ts _ _ _ (fill_links ts P1 P2) M CC FR FL FOp).
Qed.

(** ** inserting the next point of the sweep *)
Lemma above_ccw p e x : ylt (zc e) (zc p) -> ylt (zc x) (zc p) -> xlt (zc e) (zc p) -> xlt (zc p) (zc x) -> ccw3 zc p e x.
Proof using.
  unfold ccw3, orient, orient_det, xlt, ylt. destruct (zc p) as [a b], (zc e) as [c d], (zc x) as [g h]. cbn [fst snd].
  intros H1 H2 H3 H4. assert (h < b)%Z by lia. assert (a < g)%Z by lia. assert (c <= a)%Z by lia. assert (d <= b)%Z by lia.
  assert (0 <= (a - c) * (b - h))%Z by (apply Z.mul_nonneg_nonneg; lia).
  assert (0 <= (b - d) * (g - a))%Z by (apply Z.mul_nonneg_nonneg; lia).
  assert ((a - g) * (d - h) - (b - h) * (c - g) = (a - c) * (b - h) + (b - d) * (g - a))%Z as -> by ring.
  destruct H3 as [H3|[H3 H3b]].
  - assert (0 < (a - c) * (b - h))%Z by (apply Z.mul_pos_pos; lia). lia.
  - assert (0 < (b - d) * (g - a))%Z by (apply Z.mul_pos_pos; lia). lia.
Qed.

Lemma insert_point_inv D fuel id p s : Inv D s -> nth_error (ps_points points) id = Some p -> ~ In id D -> id < ps_head points ->
  (forall e, In e D -> ylt (zc e) (zc id)) ->
  wp (insert_point dbg points fuel id p) s (fun _ => J) (fun _ s' => Inv (id :: D) s').
Proof using PP.
  intros Hs Hp ND Lh HY. destruct (case_good D s Hs) as [HN|(HJ & HG & K & MR)].
  { apply ng_wp'; auto. apply grow_insert_point. apply grow_NG. }
  unfold insert_point. set (ts := s_tris s) in *. pose proof K as [M DF DB B FO W AG DI]. pose proof (proj1 FO) as C.
  set (ns := nodes (s_front s)) in *.
  assert (NF : forall i e, nth_error ns i = Some e -> en_pid e <> id).
  { intros i e He Q. pose proof (pr_head points PP). pose proof (pr_tail points PP). destruct (W i e He) as [H1|[H1|H1]]; [congruence|lia|lia]. }
  assert (YB : forall i e, nth_error ns i = Some e -> ylt (zc (en_pid e)) (zc id)).
  { intros i e He. destruct (pr_frame points PP id Lh) as (_ & F1 & F2). destruct (W i e He) as [H1|[-> | ->]]; auto; left; auto. }
  destruct (insert_chain dbg points PP (s_front s) id p (Some (length ts)) FO Hp ltac:(discriminate) NF)
    as (j & Lj & E1 & E2 & FO' & XL & XR). fold ns in Lj, E1, E2, FO', XL, XR.
  destruct j as [|k]; [lia|]. rewrite (Nat.sub_succ k 0), Nat.sub_0_r in E1.
  destruct (nth_error_ex ns k ltac:(lia)) as [en Hn]. destruct (nth_error_ex ns (S k) ltac:(lia)) as [ex Hx].
  rewrite (nth_error_nth ns k _ Hn) in E1.
  destruct (front_pos points ts ns B k en ex Hn Hx) as (P0 & B0 & E0 & T0).
  assert (CC : ccw3 zc id (en_pid en) (en_pid ex)).
  { apply above_ccw; eauto. }
  assert (Lid : id < N) by (pose proof (pr_head points PP); lia).
  apply wp_bind, wp_get_front. apply wp_bind, wp_lift. rewrite E1. cbn [okr]. cbv zeta.
  assert (NX : next_node (s_front s) (to_node en k) = Some (to_node ex (S k))).
  { unfold next_node. cbn [to_node nr_index]. rewrite Nat.add_1_r. fold ns. rewrite (proj2 (Nat.ltb_lt _ _) (proj2 Lj)), Hx. reflexivity. }
  rewrite NX. cbn [unwrap]. apply wp_bind, wp_lift. cbn [okr]. apply wp_bind, wp_get_tris. fold ts. cbn [ts_insert to_node nr_tri nr_pid].
  rewrite T0. cbn [unwrap]. apply wp_bind, wp_lift. cbn [okr].
  pose proof (ins_linkable points ts id en ex P0 B0 E0 Lid) as FL. pose proof (ins_opp ts id en ex P0 B0 E0) as FOp.
  pose proof (ins_range points ns C k id en ex Hn Hx Lid) as FR.
  pose proof (ins_mesh points ts ns M C k id en ex P0 Hn Hx B0 E0 CC Lid) as FM.
  pose proof (ins_boundary points ts ns M C B k id p en ex P0 Hn Hx B0 E0 CC Lid NF) as FB.
  set (t1 := ts ++ [tri_new id (en_pid en) (en_pid ex)]) in *.
  assert (Lt1 : length t1 = S (length ts)) by (unfold t1; rewrite app_length; simpl; lia).
  assert (TC : forall c, c < S (length ts) -> tccw zc t1 c).
  { intros c Lc. destruct (Nat.eq_dec c (length ts)) as [->|Ne]; unfold tccw, tv, t1.
    - rewrite t1_new. exact CC.
    - rewrite t1_old by lia. apply (m_ccw M). lia. }
  assert (LP0 : fst P0 < length ts) by apply B0.
  assert (G0 : length ts < S (length ts)) by auto.
  assert (G1 : forall c, c < S (length ts) -> c < length t1) by (intros c Lc; rewrite Lt1; exact Lc).
  assert (G2 : forall c, c < length ts -> c < S (length ts)) by (intros; lia).
  destruct (FOp _ _ (or_introl eq_refl)) as [O1 _]. cbn [fst snd] in O1.
  assert (Q := mark_ok (zc := zc) dbg (ts := t1) (a := fst P0) (i := snd P0) (b := length ts) (j := I0) (G1 _ (G2 _ LP0)) (G1 _ G0) (TC _ (G2 _ LP0)) (TC _ G0) O1).
  apply wp_bind, wp_lift. rewrite Q. cbn [okr].
  change (link t1 (fst P0) (snd P0) (length ts) I0) with (link t1 (fst P0) (snd P0) (fst (length ts, I0)) (snd (length ts, I0))). rewrite <- links_one.
  change (links t1 [(P0, (length ts, I0))]) with (inserted ts id en ex P0).
  apply wp_bind, wp_put_tris. apply wp_bind, wp_lift. rewrite E2. cbn [okr]. apply wp_bind, wp_put_front.
  cbn [s_tris s_front s_result s_trace].
  assert (LI : length (inserted ts id en ex P0) = S (length ts)) by (apply (at_len N zc ts _ _ _ (ins_links ts P0) M CC FR FL FOp)).
  assert (K' : Kst (id :: D) [Some (length ts)] [length ts] (inserted ts id en ex P0) (mkFront (ins_nodes ts ns k id p) (Some (p, S k)))).
  { constructor; cbn [nodes]; auto.
    - apply (at_dflags N zc ts _ _ _ (ins_links ts P0) M CC FR FL FOp DF).
    - apply (at_delaunay N zc ts _ _ _ (ins_links ts P0) M CC FR FL FOp [] DB).
    - intros j e' Hj. assert (IN : In e' (ins_nodes ts ns k id p)) by (eapply nth_error_In; eauto).
      apply In_list_insert in IN as [->|IN]; [left; left; reflexivity|]. apply In_nth_error in IN as [i' Hi'].
      destruct (W i' e' Hi') as [Q1|Q1]; [left; right; auto|right; auto].
    - intro NC. apply (at_agree N zc ts _ _ _ (ins_links ts P0) M CC FR FL FOp). apply AG. exact NC.
    - apply (disc_insert points ts ns M C D k id en ex P0); auto.
      + pose proof (pr_head points PP). pose proof (pr_tail points PP). intros [H1|[H1|H1]]; [contradiction|lia|lia].
      + apply (mesh_unique points PP _ _ _ FM (proj1 FO') FB). }
  apply wp_bind. eapply wp_mono; [apply (legalize_K dbg points PP fuel (length ts) _ (id :: D) []); cbn [s_tris s_front s_trace]; auto|..].
  - unfold TriangleStore in *. lia.
  - intros f s' [HJ' _]. exact HJ'.
  - intros ? s' (HJ' & HG' & K'' & _ & _ & KE & EE). apply wp_ret. split; auto. split; auto. intros _. cbn [s_tris s_trace] in *. rewrite EE.
    eapply MK_same; [|exact MR]. intro NC. destruct (KE NC) as [KE1 KE2]. eapply same_marks_trans; [|apply keeps_same; eauto].
    apply (at_marks N zc ts _ _ _ (ins_links ts P0) M CC FR FL FOp).
Qed.
Lemma point_event_inv D fuel id p s : Inv D s -> nth_error (ps_points points) id = Some p -> ~ In id D -> id < ps_head points ->
  (forall e, In e D -> ylt (zc e) (zc id)) ->
  wp (point_event dbg points fuel id p) s (fun _ => J) (fun _ s' => Inv (id :: D) s').
Proof using PP.
  intros. unfold point_event. apply wp_bind. eapply wp_mono; [apply (insert_point_inv D); auto|auto|].
  intros [nid np] s' Hs'. apply (point_event_rest_pres dbg points _ _ (Inv_J (id :: D))); auto. intros. apply fill_one_inv.
Qed.

(** ** inserting a constraint *)
Lemma legalize_all_wp D fuel : forall Q s, J s -> Good (s_trace s) -> Kst D [] Q (s_tris s) (s_front s) -> Forall (fun r => r < length (s_tris s)) Q ->
  wp (legalize_all dbg points fuel (map Some Q)) s (fun _ => J) (fun _ s' => J s' /\ Good (s_trace s') /\ Kst D [] [] (s_tris s') (s_front s') /\
    length (s_tris s') = length (s_tris s) /\ (nocol -> keeps (s_tris s) (s_tris s') /\ keeps (s_tris s') (s_tris s)) /\ edges_of (s_trace s') = edges_of (s_trace s)).
Proof using PP.
  induction Q as [|a Q IH]; intros s HJ HG K FQ; cbn [map legalize_all].
  - apply wp_skip. split; auto. split; auto. split; auto. split; auto. split; auto. intro. split; apply keeps_refl.
  - inversion FQ as [|? ? La FQ']; subst. apply wp_bind. eapply wp_mono; [apply (legalize_K dbg points PP fuel a s D Q); auto|..].
    + destruct K as [K1 K2 K3 K4 K5 K6 K7 K8]. constructor; auto. eapply bnd_weaken; [exact K4|]. intros ? [].
    + intros f s' [HJ' _]. exact HJ'.
    + intros ? s1 (HJ1 & HG1 & K1 & L1 & _ & KE & EE). eapply wp_mono; [apply IH; auto|auto|].
      * rewrite L1. exact FQ'.
      * intros ? s2 (HJ2 & HG2 & K2 & L2 & KE2 & EE2). split; auto. split; auto. split; auto. split; [congruence|]. split; [|congruence].
        intro NC. destruct (KE NC), (KE2 NC). split; eapply keeps_trans; eauto.
Qed.

Lemma node_with_cache_inv D id q : nth_error (ps_points points) id = Some q -> forall s, Inv D s ->
  wp (node_with_cache q) s (fun _ => J) (fun node s' => Inv D s' /\ s_trace s' = s_trace s /\ s_tris s' = s_tris s /\
    (Good (s_trace s) -> id <> ps_tail points -> forall a, nr_tri node = Some a -> a < length (s_tris s'))).
Proof using PP.
  intros Hq s Hs. destruct (case_good D s Hs) as [HN|(HJ & HG & K & MR)].
  - assert (X : forall s s', s_trace s = s_trace s' -> NG s -> NG s') by (intros s1 s2 Q; apply (grow_NG s1 s2 []); auto).
    eapply wp_mono with (F := fun _ s' => s' = s \/ exists af, s' = mkSw (s_tris s) af (s_result s) (s_trace s)) (Q := fun _ s' => exists af, s' = mkSw (s_tris s) af (s_result s) (s_trace s)).
    + unfold node_with_cache. apply wp_bind, wp_get_front. apply wp_try; [auto|]. intros [o af] _. apply wp_bind, wp_put_front.
      apply wp_try; [eauto|]. intros node _. apply wp_ret. eauto.
    + intros f s' [->|[af ->]]; [exact (NG_J _ HN)|exact (NG_J _ HN)].
    + intros x s' [af ->]. split; [apply NG_Inv; apply (X s); auto|]. split; auto. split; auto. intros G. destruct HN. contradiction.
  - unfold node_with_cache. apply wp_bind, wp_get_front. pose proof K as [M DF DB B FO W AG DI].
    apply wp_try; [auto|]. intros [o af] Q. apply wp_bind, wp_put_front.
    assert (Z : nodes af = nodes (s_front s) /\ front_ok points af /\ match o with Some node => exists i e, nth_error (nodes af) i = Some e /\ en_pid e = id /\ nr_tri node = en_tri e | None => True end).
    { unfold get_node_with_cache in Q. destruct (search_ok_cache points PP (s_front s) id q FO Hq) as (r & Er & SO). rewrite Er in Q. cbn [rbind] in Q.
      destruct r as [i|i]; [|injection Q as <- <-; auto].
      unfold get_unchecked in Q. cbn [nodes] in Q. assert (SP := search_pid points PP _ (proj1 FO) id q _ Hq SO). destruct SO as (e & Ei & Ek). rewrite Ei in Q. cbn [rbind] in Q. injection Q as <- <-.
      split; auto. split; [split; [apply FO|]|].
      - destruct (pt_finp points PP id q Hq) as [Fq _]. unfold cache_ok. cbn [access_cache nodes]. split; auto. exists e. auto.
      - cbn [nodes to_node nr_tri]. exists i, e. split; auto. split; auto. destruct SP as (e' & Ei' & <-). congruence. }
    destruct Z as (Z1 & Z2 & Z3). apply wp_try; [auto|]. intros node En. destruct o as [nd|]; [|discriminate]. injection En as ->.
    apply wp_ret. cbn [s_tris s_trace s_front]. split; [|split; auto]. split; [exact HJ|]. split; [|intros _; exact MR]. intros _. cbn [s_tris s_front]. constructor; auto; rewrite Z1; auto.
    split; auto. intros _ NT a Ha. destruct Z3 as (i & e & Hi & Pi & Ti). rewrite Z1 in Hi. pose proof (proj1 FO) as C.
    destruct (ch_last _ _ C) as (t & Ht & Pt). assert (Li := nth_error_lt _ _ _ Hi).
    assert (i <> length (nodes (s_front s)) - 1). { intros ->. rewrite Hi in Ht. injection Ht as ->. congruence. }
    destruct (nth_error_ex (nodes (s_front s)) (S i) ltac:(lia)) as [e' He'].
    destruct (front_pos points _ _ B i e e' Hi He') as (P & [LP _] & _ & TP). rewrite Ti, TP in Ha. injection Ha as <-. exact LP.
Qed.

(** the state when the edge p-id may be inserted: both endpoints are vertices, id the highest *)
Lemma wp_imp {T} (H : Prop) (m : M T) s (Q : T -> Sweeper -> Prop) : (H -> wp m s (fun _ _ => True) Q) -> wp m s (fun _ _ => True) (fun x s' => H -> Q x s').
Proof using. unfold wp. destruct (m s) as [[x|p|u|] s']; simpl; auto. Qed.
Definition edge_ok (D : list nat) (p id : nat) : Prop :=
  p <> id /\ In p D /\ id < ps_head points /\ (forall e, In e D -> e <> id -> ylt (zc e) (zc id)) /\ input_edge points p id.
Lemma edge_frame D p id L ts : edge_ok D p id -> disc points D ts -> planar points -> MK L ts -> frame points None (fun _ => True) p id id ts.
Proof using PP.
  intros (NE & Ip & Lh & HY & IE) DI PN HM. destruct (HM PN) as [MA MI]. split; [exact NE|]. split; [|split; [auto|constructor; auto]].
  - intros P LP _ PC. split; [|auto]. destruct (ptc ts P) eqn:T; auto. exfalso.
    destruct (proj1 (MA (fst (pedge ts P)) (snd (pedge ts P)))) as (e & He & HE).
    { exists P. split; [exact LP|]. split; [left; destruct (pedge ts P); reflexivity|exact T]. }
    rewrite Forall_forall in MI. pose proof (MI e He) as Ie. pose proof (pn_cross _ PN _ _ _ _ Ie IE) as X.
    destruct (pedge ts P) as [u v]. cbn [fst snd] in *.
    destruct HE as [HE|HE]; injection HE as -> ->; apply X; auto. apply pcross_swap. exact PC.
  - apply (di_vert _ _ _ DI). exact Ip.
  - intros v (c & k & Lc & <-) Nv. destruct (pr_frame points PP id Lh) as (_ & F1 & F2).
    destruct (di_seen _ _ _ DI c k Lc) as [H|[-> | ->]]; auto; left; auto.
Qed.
Lemma edge_event_inv D fuel p id q s : scan_sound points -> Inv D s -> nth_error (ps_points points) id = Some q -> edge_ok D p id ->
  wp (edge_event dbg points fuel (mkEdge p id) q) s (fun _ => J) (fun _ s' => InvM D (mkEdge p id :: edges_of (s_trace s')) s' /\
    (Good (s_trace s') -> nocol -> marked_edge (s_tris s') p id)).
Proof using PP.
  intros SC Hs Hq OK. pose proof OK as (NE & _ & Lh & _ & IE). destruct (case_good D s Hs) as [HN|(HJ & HG & K & MR)].
  { apply (ng_wp D (fun s' => mkEdge p id :: edges_of (s_trace s'))); auto; [apply grow_edge_event; apply grow_NG|]. intros ? s' [H _] ?. contradiction. }
  assert (NT : id <> ps_tail points) by (pose proof (pr_head points PP); pose proof (pr_tail points PP); lia).
  unfold edge_event. cbn [e_p e_q]. apply wp_try; [auto|]. intros pp _. cbv zeta.
  apply wp_bind. eapply wp_mono; [apply (node_with_cache_inv D id q Hq s Hs)|auto|]. intros node s1 (I1 & T1 & S1 & A1).
  specialize (A1 HG NT). pose proof I1 as (HJ1 & HK1 & HM1). rewrite T1 in HK1, HM1. specialize (HK1 HG). specialize (HM1 HG).
  apply wp_try; [auto|]. intros a Ea. destruct (nr_tri node) as [a'|]; [|discriminate]. injection Ea as ->. specialize (A1 a eq_refl).
  apply wp_bind. eapply wp_mono; [apply (try_mark_wp points p id a s1 (k_mesh _ _ _ _ _ _ HK1) A1)|contradiction|].
  intros [] s2 H; cbv beta iota in H.
  { destruct H as (ts' & -> & MM & FA & ME & ON & _). apply wp_skip. cbn [s_tris s_trace]. split; auto. split; [exact HJ1|]. split; intros _; cbn [s_tris s_front].
    - eapply more_Kst; eauto. intro NC. apply FA. apply (k_agree _ _ _ _ _ _ HK1 NC).
    - rewrite T1. intro PN. destruct (HM1 PN) as [MA MI]. split; [eapply marks_more; eauto|constructor; auto]. }
  destruct H as [-> _].
  apply wp_bind. eapply wp_mono; [apply (fill_edge_event_pres dbg points _ _ (Inv_J D) (fun fu i => fill_one_inv D fu i) fuel _ _ s1 I1)|auto|].
  intros ? s2 I2. cbv beta in I2.
  apply wp_bind. eapply wp_mono; [apply (node_with_cache_inv D id q Hq s2 I2)|auto|]. intros node2 s3 (I3 & T3 & S3 & A3).
  apply wp_try; [intro; apply (Inv_J D); auto|]. intros b Eb. destruct (nr_tri node2) as [b'|]; [|discriminate]. injection Eb as ->.
  destruct (case_good D s3 I3) as [HN|(HJ3 & HG3 & K3 & M3)].
  { apply (ng_wp D (fun s' => mkEdge p id :: edges_of (s_trace s'))); auto; [|intros ? s' [H _] ?; contradiction].
    assert (IJ : forall s, NG s -> NG s) by auto. pose proof (grow_edge_process dbg points NG grow_NG fuel) as (G1 & _ & _).
    pose proof (grow_legalize_all dbg points NG grow_NG fuel) as G2. apply (pres_bind _ _ IJ); auto. }
  rewrite T3 in HG3. specialize (A3 HG3 NT b eq_refl).
  assert (EP3 : EP points D (length (s_tris s3)) (nodes (s_front s3)) [] s3).
  { exists []. split; auto. split; auto. split; [rewrite T3; auto|]. split; auto. split; auto. split; auto. apply same_refl. }
  match goal with |- wp (bind (edge_event_process dbg points fuel p id ?c _ _ _) _) _ _ _ => set (ce := c) in * end.
  assert (CE : p_id ce = p /\ q_id ce = id) by (split; reflexivity). destruct CE as [CE1 CE2].
  assert (W1 := proj1 (edge_process_wp dbg points PP D (length (s_tris s3)) (nodes (s_front s3)) SC fuel) p id ce (Some b) [] s3 NE EP3).
  assert (W2 : wp (edge_event_process dbg points fuel p id ce (Some b) id []) s3 (fun _ _ => True) (fun _ s' => planar points -> post points None (fun _ => True) p id (s_tris s3) (s_tris s'))).
  { apply wp_imp. intro PN. eapply wp_mono; [apply (proj1 (insert_wp dbg points PP (pn_col _ PN) (pn_scan _ PN) D (length (s_tris s3)) (nodes (s_front s3)) fuel) None (fun _ => True) p id ce (Some b) [] s3 EP3)|auto|].
    - rewrite CE2. eapply edge_frame; eauto. apply K3.
    - cbn [ready]. intros a0 Q. injection Q as <-. exact A3.
    - intros ? s4 [_ H]. exact H. }
  assert (W3 := proj1 (still_edge_process dbg points (fun s => s_trace s = s_trace s3) ltac:(intros; congruence) fuel) p id ce (Some b) id [] s3 eq_refl).
  apply wp_bind. eapply wp_mono; [apply wp_and; [apply W1|apply wp_and; [exact W2|exact W3]]| |].
  - intros a0 Q. injection Q as <-. exact A3.
  - intros f s' [Hf _]. exact Hf.
  - intros ids s4 (((Qn & -> & HJ4 & HG4 & K4 & FQ & L4 & _) & ME) & PO & T4). rewrite <- L4 in FQ.
    eapply wp_mono; [apply (legalize_all_wp D fuel Qn s4); auto|auto|]. intros ? s5 (HJ5 & HG5 & K5 & L5 & KE & EE).
    split; [|intros _ NC; eapply keeps_edge; [apply KE; auto|]; apply ME; auto]. split; auto. split; auto. intros _. rewrite EE, T4.
    apply (MK_same _ (s_tris s4)); [intro NC; destruct (KE NC); apply keeps_same; auto|].
    intro PN. destruct (M3 PN) as [MA MI]. split; [|constructor; auto]. destruct (PO PN) as (ts1 & FL & MM & ON).
    eapply marks_more; eauto; [apply ME; auto; apply PN|]. destruct (fl_keeps _ _ _ _ _ FL). eapply marks_same; [apply keeps_same; eauto|exact MA].
Qed.

End S.
