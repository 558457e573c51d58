(** * FillTotal: filling and point events succeed *)
From Coq Require Import List Arith Bool Lia ZArith.
From Verif Require Import Base Num Shape ShapeSpec Utils Points Triangles Front Sweeper Cdt F64 Lists Monad Traverse TraceSpec Grow Exact
  FrontSpec Geom Mesh Rotate Setup Legal Legalize Boundary Chain Remap Attach FrontInv Disc Good Marks Flips Cone Planar Corridor Frames Insert Fills Total FrontSub.
Import ListNotations.

Section S.
Context {A : Arith} {E : Exact A}.
Variable dbg : bool.
Variable points : Points.
Hypothesis PP : proper points.
Notation N := (npts points).
Notation zc := (zc points).
Notation bnd := (boundary (ps_head points) (ps_tail points)).
Notation Kst := (Kst points).
Notation J := (J points).
Notation Good := (Good points).
Notation nocol := (nocol points).
Notation within := (within points).
Notation Inv := (Inv points).
Notation nid_ok := (nid_ok points).
Context {Ed : nat -> nat -> Prop}.
Notation gd := (gd (Ed:=Ed) points).
Notation grows := grows.
Notation TK := (TK points).
Notation enough := (enough points).

Lemma p_fill_one tr fuel id : pres (Grown tr) (Grown tr) (fill_one dbg points fuel id). Proof using. apply gr_fill_one. Qed.
Lemma p_right_holes tr fuel id : pres (Grown tr) (Grown tr) (fill_right_holes dbg points fuel id). Proof using. apply gr_fill_right_holes. Qed.
Lemma p_left_holes tr fuel id : pres (Grown tr) (Grown tr) (fill_left_holes dbg points fuel id). Proof using. apply gr_fill_left_holes. Qed.
Lemma p_basin_req tr fuel id b : pres (Grown tr) (Grown tr) (fill_basin_req dbg points fuel id b). Proof using. apply gr_fill_basin_req. Qed.
Lemma p_basin tr fuel id : pres (Grown tr) (Grown tr) (fill_basin dbg points fuel id). Proof using. apply gr_fill_basin. Qed.
Lemma p_faf tr fuel p : pres (Grown tr) (Grown tr) (fill_advancing_front dbg points fuel p). Proof using. apply gr_faf. Qed.
Hint Resolve p_fill_one p_right_holes p_left_holes p_basin_req p_basin p_faf : pres.
Ltac grow_go := let x := fresh "x" in let tr := fresh "tr" in intros x tr; pres_go (Grown_IJ tr).

Lemma legalize_gd fuel a s D P : enough fuel -> J s -> Good (s_trace s) -> a < length (s_tris s) -> length (s_tris s) <= 2 * N -> Kst D [Some a] (a :: P) (s_tris s) (s_front s) ->
  gd (legalize dbg points fuel (Some a)) s (fun _ s' => J s' /\ Good (s_trace s') /\ Kst D [] P (s_tris s') (s_front s') /\
      length (s_tris s') = length (s_tris s) /\ same_nodes (nodes (s_front s)) (nodes (s_front s')) /\
      (nocol -> keeps (s_tris s) (s_tris s') /\ keeps (s_tris s') (s_tris s)) /\ edges_of (s_trace s') = edges_of (s_trace s)).
Proof using PP.
  intros [EF _] HJ HG La LT K. apply gd_of_wp. eapply wp_mono; [apply (legalize_K dbg points PP fuel a s D P HJ HG La K)| |intros x s' H; split; [exact H|intros _; apply H]].
  intros f s' (_ & _ & H). lia.
Qed.

Lemma bad_fill fuel a s (Q : unit -> Sweeper -> Prop) : S a = length (s_tris s) -> ~ tccw zc (s_tris s) a -> ~ tame points Ed -> gd (legalize dbg points fuel (Some a)) s Q.
Proof using.
  intros L NC NT _ [G|G]; [|destruct (NT G)]. exfalso. revert G. unfold legalize. unfold bind at 1, emit at 1. set (s0 := mkSw _ _ _ _). set (m := bind _ _). intro G.
  assert (GM : forall tr, pres (Grown tr) (Grown tr) m) by (intro tr; apply (grow_rest dbg points), Grown_X).
  assert (G0 := grows_good points m s0 GM G). inversion G0 as [|? ? G1 G2]; subst. apply NC. apply G1. exact L.
Qed.

Lemma common_some s o i j : distinct s -> distinct o -> V s (nxt i) = V o (prv j) -> V s (prv i) = V o (nxt j) -> common_edge_index s o <> None.
Proof using.
  intros Ds Do E1 E2. apply distinct_iff in Ds as (A1 & B1 & C1). apply distinct_iff in Do as (A2 & B2 & C2).
  unfold V in *. destruct s as [[s0 s1 s2] ? ? ?], o as [[o0 o1 o2] ? ? ?]. unfold common_edge_index. simpl in *.
  destruct i, j; simpl in *; subst; eqb_cases; congruence.
Qed.
Lemma mark_done ts a i b j : a < length ts -> b < length ts -> a <> b -> distinct (tri_at ts a) -> distinct (tri_at ts b) -> opposed ts a i b j ->
  exists ts', mark_neighbor dbg ts (Some a) (Some b) = Done ts'.
Proof using.
  intros La Lb Ne Da Db [O1 O2]. unfold mark_neighbor, get_mut_two_ok.
  rewrite (proj2 (Nat.eqb_neq a b)), (proj2 (Nat.ltb_lt _ _) La), (proj2 (Nat.ltb_lt _ _) Lb) by auto. cbn [andb negb rassert rbind tid_eqb].
  unfold mark_neighbor_cells, ts_get_unchecked_at, get_unchecked. rewrite !nth_error_at by auto. cbn [rbind]. unfold mark_neighbor_for_two_mut.
  assert (CE := common_some (tri_at ts a) (tri_at ts b) i j Da Db O1 O2). destruct (common_edge_index _ _) as [[x y]|]; [|congruence]. cbn [rbind]. eauto.
Qed.

Lemma same_pids ns ns' : same_nodes ns ns' -> map en_pid ns' = map en_pid ns.
Proof using. intro SN. unfold same_nodes in SN. assert (QQ := f_equal (map snd) SN). rewrite !map_map in QQ. simpl in QQ. auto. Qed.

Lemma fill_one_tot D fuel id L a c R s : enough fuel -> TK D (L ++ a :: ni_pid id :: c :: R) s -> nid_ok id ->
  (tame points Ed -> (0 < orient (zc a) (zc (ni_pid id)) (zc c))%Z) ->
  gd (fill_one dbg points fuel id) s (fun r s' => exists fo, r = Some fo /\ nid_ok (fo_prev fo) /\ ni_pid (fo_prev fo) = a /\
    nid_ok (fo_next fo) /\ ni_pid (fo_next fo) = c /\ TK D (L ++ a :: c :: R) s' /\ (0 < orient (zc a) (zc (ni_pid id)) (zc c))%Z).
Proof using PP.
  intros EF T Hid TMH. pose proof (fill_one_inv dbg points PP D fuel id s (tk_inv _ _ _ _ T)) as WI.
  assert (GW : gd (fill_one dbg points fuel id) s (fun r s' => exists fo, r = Some fo /\ nid_ok (fo_prev fo) /\ ni_pid (fo_prev fo) = a /\
    nid_ok (fo_next fo) /\ ni_pid (fo_next fo) = c /\ (vs_of s' = L ++ a :: c :: R /\ length (s_tris s') = S (length (s_tris s))) /\ (0 < orient (zc a) (zc (ni_pid id)) (zc c))%Z)).
  2:{ pose proof (gd_good points _ _ _ (gd_wp points _ _ _ _ _ GW WI)) as G2. eapply gd_mono; [exact G2|].
      intros r s' (((fo & H1 & H2 & H3 & H4 & H5 & (H6 & H7) & H8) & H9) & H10). exists fo. do 5 (split; auto). split; auto. constructor; auto.
      - pose proof (tk_cnt _ _ _ _ T) as TC. rewrite !app_length in *. cbn [length] in *. unfold TriangleStore in *. lia.
      - apply (tk_D _ _ _ _ T).
      - destruct (tk_split points D _ s (L ++ [a]) (ni_pid id) (c :: R) T) as (XL & XR & _); [rewrite <- app_assoc; reflexivity|].
        apply (covered_fill zc D L a (ni_pid id) c R); auto; [apply XL; apply in_or_app; simpl; auto|apply XR; simpl; auto|apply (tk_below _ _ _ _ T)]. }
  clear WI. set (b := ni_pid id) in *. pose proof (tk_K _ _ _ _ T) as K. pose proof (tk_C _ _ _ _ T) as C. pose proof (tk_inv _ _ _ _ T) as (HJ & _).
  pose proof (tk_good _ _ _ _ T) as HG. pose proof (tk_vs _ _ _ _ T) as VS. unfold vs_of in VS.
  unfold fill_one. set (ts := s_tris s) in *. set (ns := nodes (s_front s)) in *.
  apply gd_front. 
  assert (VS' : map en_pid ns = (L ++ [a]) ++ b :: c :: R) by (rewrite VS, <- app_assoc; auto).
  destruct (get_id points PP (s_front s) C id (L ++ [a]) (c :: R) Hid VS') as (node & E1 & RN). fold b in RN.
  eapply gd_lift; [exact E1|]. eapply gd_lift; [reflexivity|].
  destruct (ref_prev (s_front s) _ _ _ _ RN L a eq_refl) as (prev & E2 & RP). eapply gd_lift; [exact E2|]. cbv beta iota.
  destruct (ref_next (s_front s) _ _ _ _ RN) as (next & E3 & RX). rewrite E3. cbv zeta.
  apply gd_tris. fold ts. cbn [ts_insert].
  destruct (ref_pid points _ C _ _ _ _ RP) as (Pp & _ & Np & Np'). destruct (ref_pid points _ C _ _ _ _ RX) as (Px & _ & Nx & Nx').
  destruct (ref_pid points _ C _ _ _ _ RN) as (Pn & _ & _).
  destruct RN as (_ & In_ & (en & Gn & Qn)). destruct RP as (_ & Ip & (ep & Gp & Qp)). destruct RX as (_ & Ix & (ex & Gx & Qx)).
  fold ns in Gn, Gp, Gx. rewrite app_length in In_. rewrite !app_length in Ix. cbn [length] in In_, Ix. rewrite In_ in Gn. rewrite Ix in Gx. rewrite Ip in Gp.
  set (k := length L) in *. replace (k + 1) with (S k) in * by lia. replace (S k + 1) with (S (S k)) in * by lia.
  assert (Pep : en_pid ep = a) by (rewrite Qp in Pp; exact Pp). assert (Pen : en_pid en = b) by (rewrite Qn in Pn; exact Pn). assert (Pex : en_pid ex = c) by (rewrite Qx in Px; exact Px).
  pose proof K as [M DF DB B FO W AG DI]. fold ns in B, W, C. fold ts in M, DF, DB, B, AG, DI.
  destruct (front_pos points ts ns B k ep en Gp Gn) as (P1 & B1 & F1 & T1).
  destruct (front_pos points ts ns B (S k) en ex Gn Gx) as (P2 & B2 & F2 & T2).
  assert (Tp : nr_tri prev = Some (fst P1)) by (rewrite Qp; exact T1). assert (Tn : nr_tri node = Some (fst P2)) by (rewrite Qn; exact T2).
  rewrite Tp, Tn, Pp, Pn, Px. eapply gd_lift; [reflexivity|].
  set (t1 := ts ++ [tri_new a b c]).
  assert (FOp : forall X Y, In (X, Y) (fill_links ts P1 P2) -> opposed (ts ++ [tri_new (en_pid ep) (en_pid en) (en_pid ex)]) (fst X) (snd X) (fst Y) (snd Y) /\
    ((fst X = length ts /\ bpos ts Y) \/ (bpos ts X /\ fst Y = length ts))) by apply (fill_opp ts ep en ex P1 P2 B1 F1 B2 F2).
  rewrite Pep, Pen, Pex in FOp. fold t1 in FOp.
  assert (Lt1 : length t1 = S (length ts)) by (unfold t1; rewrite app_length; simpl; lia).
  assert (LP1 : fst P1 < length ts) by apply B1. assert (LP2 : fst P2 < length ts) by apply B2.
  assert (G0 : length ts < S (length ts)) by auto.
  assert (G1 : forall c, c < S (length ts) -> c < length t1) by (intros c0 Lc; rewrite Lt1; exact Lc).
  assert (G2 : forall c, c < length ts -> c < S (length ts)) by (intros; lia).
  assert (NE : a <> b /\ b <> c /\ a <> c).
  { rewrite <- Pep, <- Pen, <- Pex. repeat split; intro Q.
    - assert (X := ch_nodup points _ C _ _ _ _ Gp Gn Q). lia.
    - assert (X := ch_nodup points _ C _ _ _ _ Gn Gx Q). lia.
    - assert (X := ch_nodup points _ C _ _ _ _ Gp Gx Q). lia. }
  assert (DN : distinct (tri_new a b c)) by (apply distinct_iff; cbn; tauto).
  assert (DT : forall c, c < S (length ts) -> distinct (tri_at t1 c)).
  { intros c0 Lc. destruct (Nat.eq_dec c0 (length ts)) as [->|Ne0]; unfold t1.
    - rewrite t1_new. exact DN.
    - rewrite t1_old by lia. apply (mesh_dist M). lia. }
  destruct (FOp _ _ (or_introl eq_refl)) as [O1 _]. destruct (FOp _ _ (or_intror (or_introl eq_refl))) as [O2 _]. cbn [fst snd] in O1, O2.
  destruct (mark_done t1 (length ts) I2 (fst P1) (snd P1) (G1 _ G0) (G1 _ (G2 _ LP1)) ltac:(lia) (DT _ G0) (DT _ (G2 _ LP1)) O1) as [ts1 H1].
  eapply gd_lift; [exact H1|]. eapply gd_lift; [reflexivity|]. destruct (mark_tv dbg _ _ _ _ H1) as [L1 V1].
  assert (G3 : forall c, c < S (length ts) -> c < length ts1) by (intros c0 Lc; rewrite L1; apply (G1 c0 Lc)).
  assert (DT1 : forall c, c < S (length ts) -> distinct (tri_at ts1 c)).
  { intros c0 Lc. specialize (DT c0 Lc). rewrite distinct_iff in *. pose proof (V1 c0 I0) as X0. pose proof (V1 c0 I1) as X1. pose proof (V1 c0 I2) as X2. unfold tv in X0, X1, X2. rewrite X0, X1, X2. exact DT. }
  assert (O2' : opposed ts1 (length ts) I0 (fst P2) (snd P2)) by (unfold opposed in *; rewrite !V1; exact O2).
  destruct (mark_done ts1 (length ts) I0 (fst P2) (snd P2) (G3 _ G0) (G3 _ (G2 _ LP2)) ltac:(lia) (DT1 _ G0) (DT1 _ (G2 _ LP2)) O2') as [ts2 H2].
  eapply gd_lift; [exact H2|]. destruct (mark_tv dbg _ _ _ _ H2) as [L2 V2].
  assert (LN : length ts2 = S (length ts)) by (rewrite L2, L1; exact Lt1).
  apply gd_put_tris. cbn [s_tris s_front s_result s_trace].
  assert (LX := nth_error_lt _ _ _ Gx).
  assert (Eaf : update_and_delete_by_index dbg (s_front s) (nr_index prev) a (Some (length ts)) (nr_index node) = Done (mkFront (fill_nodes ts ns k ep) None)).
  { unfold update_and_delete_by_index. fold ns. rewrite Ip, In_, Gp. cbn [tid_invalid negb rassert unwrap]. 
    assert (X : (if dbg then Done tt else Done tt) = Done tt) by (destruct dbg; auto). rewrite X. cbn [rbind]. rewrite Pep, Nat.eqb_refl. cbn [rassert]. rewrite X. cbn [rbind].
    rewrite list_set_length, (proj2 (Nat.ltb_lt _ _)) by lia. reflexivity. }
  eapply gd_lift; [exact Eaf|]. apply gd_put_front. cbn [s_tris s_front s_result s_trace].
  assert (VF : map en_pid (fill_nodes ts ns k ep) = L ++ a :: c :: R).
  { unfold fill_nodes. rewrite map_remove, map_list_set. cbn [set_tri en_pid]. rewrite list_set_same by (apply map_nth_error; exact Gp).
    rewrite VS. apply remove_mid. }
  assert (VN : tv ts2 (length ts) I0 = a /\ tv ts2 (length ts) I1 = b /\ tv ts2 (length ts) I2 = c).
  { rewrite !V2, !V1. unfold tv, t1. rewrite t1_new. auto. }
  apply gd_bind; [intros x tr; apply (pres_ret _ _ (Grown_IJ tr))|].
  destruct (Z_lt_dec 0 (orient (zc a) (zc b) (zc c))) as [CC|NCC].
  2:{ apply bad_fill; cbn [s_tris]; [auto| |intro TM; apply NCC; apply (TMH TM)]. unfold tccw, ccw3. destruct VN as (-> & -> & ->). exact NCC. }
  change (ccw3 zc a b c) in CC.
  assert (X1 : ts1 = link t1 (length ts) I2 (fst P1) (snd P1)).
  { assert (TC : forall c, c < S (length ts) -> tccw zc t1 c).
    { intros c0 Lc. destruct (Nat.eq_dec c0 (length ts)) as [->|Ne]; unfold tccw, tv, t1.
      - rewrite t1_new. exact CC.
      - rewrite t1_old by lia. apply (m_ccw M). lia. }
    assert (Q := mark_ok (zc := zc) dbg (ts := t1) (a := length ts) (i := I2) (b := fst P1) (j := snd P1) (G1 _ G0) (G1 _ (G2 _ LP1)) (TC _ G0) (TC _ (G2 _ LP1)) O1).
    rewrite Q in H1. congruence. }
  assert (X2 : ts2 = filled ts ep en ex P1 P2).
  { assert (TC' : forall c, c < S (length ts) -> tccw zc ts1 c).
    { intros c0 Lc. unfold tccw. rewrite !V1. destruct (Nat.eq_dec c0 (length ts)) as [->|Ne]; unfold tv, t1.
      - rewrite t1_new. exact CC.
      - rewrite t1_old by lia. apply (m_ccw M). lia. }
    assert (Q := mark_ok (zc := zc) dbg (ts := ts1) (a := length ts) (i := I0) (b := fst P2) (j := snd P2) (G3 _ G0) (G3 _ (G2 _ LP2)) (TC' _ G0) (TC' _ (G2 _ LP2)) O2').
    rewrite Q in H2. injection H2 as <-. rewrite X1. unfold filled, fill_links. rewrite links_two. unfold t1. rewrite Pep, Pen, Pex. reflexivity. }
  assert (CC' : ccw3 zc (en_pid ep) (en_pid en) (en_pid ex)) by (rewrite Pep, Pen, Pex; exact CC).
  pose proof (fill_linkable points ts ns C k ep en ex P1 P2 Gp Gn Gx B1 F1 B2 F2) as FL.
  pose proof (fill_opp ts ep en ex P1 P2 B1 F1 B2 F2) as FOp'.
  pose proof (fill_range points ns C k ep en ex Gp Gn Gx) as FR.
  pose proof (fill_mesh points ts ns M C k ep en ex P1 P2 Gp Gn Gx B1 F1 B2 F2 CC') as FM.
  pose proof (fill_boundary points ts ns M C B k ep en ex P1 P2 Gp Gn Gx B1 F1 B2 F2 CC') as FB.
  assert (C1 : chain points (list_set ns k (set_tri ep (Some (length ts))))) by (apply set_tri_chain; auto; discriminate).
  assert (C2 : chain points (fill_nodes ts ns k ep)) by (apply remove_chain; auto; rewrite ?list_set_length; lia).
  assert (K' : Kst D [] [length ts] ts2 (mkFront (fill_nodes ts ns k ep) None)).
  { subst ts2. constructor; cbn [nodes]; auto.
    - apply (at_dflags N zc ts _ _ _ (fill_links ts P1 P2) M CC' FR FL FOp' DF).
    - apply (at_delaunay N zc ts _ _ _ (fill_links ts P1 P2) M CC' FR FL FOp' [] DB).
    - split; [exact C2|exact I].
    - intros j e' Hj. rewrite (fill_nodes_nth points ts ns C k ep en ex Gp Gn Gx) in Hj. destruct (j <? S k); [|apply (W _ _ Hj)].
      destruct (j =? k); [|apply (W _ _ Hj)]. injection Hj as <-. apply (W _ _ Gp).
    - intro NC. apply (at_agree N zc ts _ _ _ (fill_links ts P1 P2) M CC' FR FL FOp'). apply AG. exact NC.
    - apply (disc_fill points ts ns M C B D k ep en ex P1 P2); auto. apply (mesh_unique points PP _ _ _ FM C2 FB). }
  eapply gd_mono; [apply (legalize_gd fuel (length ts) _ D []); cbn [s_tris s_front s_trace]; auto|].
  - lia.
  - pose proof (tk_cnt _ _ _ _ T) as TC. pose proof (tk_D _ _ _ _ T) as TD. rewrite app_length in TC. cbn [length] in TC. fold ts in TC. unfold TriangleStore in *. lia.
  - destruct K' as [K1 K2 K3 K4 K5 K6 K7 K8]. constructor; auto. eapply bnd_weaken; [exact K4|]. intros ? [].
  - intros ? s' (HJ' & HG' & K'' & LL & SN & _). apply gd_ret. cbn [s_tris s_front nodes] in *. eexists. split; [reflexivity|]. cbn [fo_prev fo_next].
    split; auto. split; auto. split; auto. split; auto. split; [|exact CC]. split; [|rewrite LL; exact LN].
    unfold vs_of. rewrite <- VF. apply same_pids. exact SN.
Qed.

(** the head of the front is never filled *)
Lemma fill_one_head D fuel id R s : TK D (ni_pid id :: R) s -> nid_ok id ->
  gd (fill_one dbg points fuel id) s (fun r s' => r = None /\ s' = s).
Proof using PP.
  intros T Hid. unfold fill_one. pose proof (tk_C _ _ _ _ T) as C. apply gd_front.
  destruct (get_id points PP (s_front s) C id [] R Hid (tk_vs _ _ _ _ T)) as (node & E1 & RN).
  eapply gd_lift; [exact E1|]. eapply gd_lift; [reflexivity|]. eapply gd_lift; [eapply ref_prev0; exact RN|]. apply gd_ret. auto.
Qed.

(** ** inserting a point *)
Lemma skipn_nth {T} (l : list T) i x : nth_error l i = Some x -> skipn i l = x :: skipn (S i) l.
Proof using. revert i. induction l as [|y l IH]; intros [|i] H; try discriminate; cbn in *; [congruence|]. apply IH. exact H. Qed.
Lemma insert_point_tot D fuel id p vs s : enough fuel -> TK D vs s -> length D < N -> nth_error (ps_points points) id = Some p -> ~ In id D -> id < ps_head points ->
  (forall e, In e D -> ylt (zc e) (zc id)) ->
  gd (insert_point dbg points fuel id p) s (fun r s' => exists L u w R, vs = L ++ u :: w :: R /\ nid_ok (fst r) /\ ni_pid (fst r) = u /\
    TK (id :: D) (L ++ u :: id :: w :: R) s' /\ nth_error (ps_points points) u = Some (snd r)).
Proof using PP.
  intros EF T LD Hp ND Lh HY. pose proof (insert_point_inv dbg points PP D fuel id p s (tk_inv _ _ _ _ T) Hp ND Lh HY) as WI.
  assert (GW : gd (insert_point dbg points fuel id p) s (fun r s' => exists L u w R, vs = L ++ u :: w :: R /\ nid_ok (fst r) /\ ni_pid (fst r) = u /\
    (vs_of s' = L ++ u :: id :: w :: R /\ (xlt (zc u) (zc id) /\ xlt (zc id) (zc w) /\ (0 < orient (zc id) (zc u) (zc w))%Z)) /\ length (s_tris s') = S (length (s_tris s)) /\ nth_error (ps_points points) u = Some (snd r))).
  2:{ pose proof (gd_good points _ _ _ (gd_wp points _ _ _ _ _ GW WI)) as G2. eapply gd_mono; [exact G2|].
      intros r s' (((L & u & w & R & H1 & H2 & H3 & (H4 & H4a & H4b & H4c) & H5 & H5a) & H6) & H7). exists L, u, w, R. do 3 (split; auto). split; auto. constructor; auto.
      - pose proof (tk_cnt _ _ _ _ T) as TC. rewrite H1 in TC. rewrite !app_length in *. cbn [length] in *. unfold TriangleStore in *. lia.
      - pose proof (tk_below _ _ _ _ T) as TB. rewrite H1 in TB. apply covered_insert; auto. intros v Hv Q. specialize (HY v Hv). rewrite Q in HY. unfold ylt in HY. lia. }
  clear WI. pose proof (tk_good _ _ _ _ T) as HG. pose proof (tk_K _ _ _ _ T) as K. pose proof (tk_inv _ _ _ _ T) as (HJ & _).
  unfold insert_point. set (ts := s_tris s) in *. pose proof K as [M DF DB B FO W AG DI]. pose proof (proj1 FO) as C.
  set (ns := nodes (s_front s)) in *.
  assert (NF : forall i e, nth_error ns i = Some e -> en_pid e <> id).
  { intros i e He Q. pose proof (pr_head points PP). pose proof (pr_tail points PP). destruct (W i e He) as [H1|[H1|H1]]; [congruence|lia|lia]. }
  assert (YB : forall i e, nth_error ns i = Some e -> ylt (zc (en_pid e)) (zc id)).
  { intros i e He. destruct (pr_frame points PP id Lh) as (_ & F1 & F2). destruct (W i e He) as [H1|[-> | ->]]; auto; left; auto. }
  destruct (insert_chain dbg points PP (s_front s) id p (Some (length ts)) FO Hp ltac:(discriminate) NF)
    as (j & Lj & E1 & E2 & FO' & XL & XR). fold ns in Lj, E1, E2, FO', XL, XR.
  destruct j as [|k]; [lia|]. rewrite (Nat.sub_succ k 0), Nat.sub_0_r in E1.
  destruct (nth_error_ex ns k ltac:(lia)) as [en Hn]. destruct (nth_error_ex ns (S k) ltac:(lia)) as [ex Hx].
  rewrite (nth_error_nth ns k _ Hn) in E1.
  destruct (front_pos points ts ns B k en ex Hn Hx) as (P0 & B0 & E0 & T0).
  assert (CC : ccw3 zc id (en_pid en) (en_pid ex)) by (apply above_ccw; eauto).
  assert (Lid : id < N) by (pose proof (pr_head points PP); lia).
  apply gd_front. eapply gd_lift; [exact E1|]. cbv zeta.
  assert (NX : next_node (s_front s) (to_node en k) = Some (to_node ex (S k))).
  { unfold next_node. cbn [to_node nr_index]. rewrite Nat.add_1_r. fold ns. rewrite (proj2 (Nat.ltb_lt _ _) (proj2 Lj)), Hx. reflexivity. }
  rewrite NX. cbn [unwrap]. eapply gd_lift; [reflexivity|]. apply gd_tris. fold ts. cbn [ts_insert to_node nr_tri nr_pid].
  rewrite T0. cbn [unwrap]. eapply gd_lift; [reflexivity|].
  pose proof (ins_linkable points ts id en ex P0 B0 E0 Lid) as FL. pose proof (ins_opp ts id en ex P0 B0 E0) as FOp.
  pose proof (ins_range points ns C k id en ex Hn Hx Lid) as FR.
  pose proof (ins_mesh points ts ns M C k id en ex P0 Hn Hx B0 E0 CC Lid) as FM.
  pose proof (ins_boundary points ts ns M C B k id p en ex P0 Hn Hx B0 E0 CC Lid NF) as FB.
  set (t1 := ts ++ [tri_new id (en_pid en) (en_pid ex)]) in *.
  assert (Lt1 : length t1 = S (length ts)) by (unfold t1; rewrite app_length; simpl; lia).
  assert (TC : forall c, c < S (length ts) -> tccw zc t1 c).
  { intros c Lc. destruct (Nat.eq_dec c (length ts)) as [->|Ne]; unfold tccw, tv, t1.
    - rewrite t1_new. exact CC.
    - rewrite t1_old by lia. apply (m_ccw M). lia. }
  assert (LP0 : fst P0 < length ts) by apply B0.
  assert (G0 : length ts < S (length ts)) by auto.
  assert (G1 : forall c, c < S (length ts) -> c < length t1) by (intros c Lc; rewrite Lt1; exact Lc).
  assert (G2 : forall c, c < length ts -> c < S (length ts)) by (intros; lia).
  destruct (FOp _ _ (or_introl eq_refl)) as [O1 _]. cbn [fst snd] in O1.
  assert (Q := mark_ok (zc := zc) dbg (ts := t1) (a := fst P0) (i := snd P0) (b := length ts) (j := I0) (G1 _ (G2 _ LP0)) (G1 _ G0) (TC _ (G2 _ LP0)) (TC _ G0) O1).
  eapply gd_lift; [exact Q|].
  change (link t1 (fst P0) (snd P0) (length ts) I0) with (link t1 (fst P0) (snd P0) (fst (length ts, I0)) (snd (length ts, I0))). rewrite <- links_one.
  change (links t1 [(P0, (length ts, I0))]) with (inserted ts id en ex P0).
  apply gd_put_tris. eapply gd_lift; [exact E2|]. apply gd_put_front.
  cbn [s_tris s_front s_result s_trace].
  assert (LI : length (inserted ts id en ex P0) = S (length ts)) by (apply (at_len N zc ts _ _ _ (ins_links ts P0) M CC FR FL FOp)).
  assert (K' : Kst (id :: D) [Some (length ts)] [length ts] (inserted ts id en ex P0) (mkFront (ins_nodes ts ns k id p) (Some (p, S k)))).
  { constructor; cbn [nodes]; auto.
    - apply (at_dflags N zc ts _ _ _ (ins_links ts P0) M CC FR FL FOp DF).
    - apply (at_delaunay N zc ts _ _ _ (ins_links ts P0) M CC FR FL FOp [] DB).
    - intros j e' Hj. assert (IN : In e' (ins_nodes ts ns k id p)) by (eapply nth_error_In; eauto).
      apply In_list_insert in IN as [->|IN]; [left; left; reflexivity|]. apply In_nth_error in IN as [i' Hi'].
      destruct (W i' e' Hi') as [Q1|Q1]; [left; right; auto|right; auto].
    - intro NC. apply (at_agree N zc ts _ _ _ (ins_links ts P0) M CC FR FL FOp). apply AG. exact NC.
    - apply (disc_insert points ts ns M C D k id en ex P0); auto.
      + pose proof (pr_head points PP). pose proof (pr_tail points PP). intros [H1|[H1|H1]]; [contradiction|lia|lia].
      + apply (mesh_unique points PP _ _ _ FM (proj1 FO') FB). }
  apply gd_bind; [intros x tr; apply (pres_ret _ _ (Grown_IJ tr))|].
  assert (VS : vs = firstn k (map en_pid ns) ++ en_pid en :: en_pid ex :: skipn (S (S k)) (map en_pid ns)).
  { rewrite <- (tk_vs _ _ _ _ T). unfold vs_of. fold ns. rewrite <- (firstn_skipn k (map en_pid ns)) at 1. f_equal.
    rewrite (skipn_nth _ _ _ (map_nth_error en_pid _ _ Hn)). f_equal. apply (skipn_nth _ _ _ (map_nth_error en_pid _ _ Hx)). }
  assert (LK : length (firstn k (map en_pid ns)) = k) by (apply firstn_length_le; rewrite map_length; lia).
  eapply gd_mono; [apply (legalize_gd fuel (length ts) _ (id :: D) []); cbn [s_tris s_front s_trace]; auto|].
  - unfold TriangleStore in *. lia.
  - pose proof (tk_cnt _ _ _ _ T) as TC'. rewrite VS, app_length in TC'. cbn [length] in TC'. fold ts in TC'. unfold TriangleStore in *. lia.
  - intros ? s' (HJ' & HG' & K'' & LL & SN & _). apply gd_ret. cbn [s_tris s_front nodes fst] in *.
    exists (firstn k (map en_pid ns)), (en_pid en), (en_pid ex), (skipn (S (S k)) (map en_pid ns)). split; auto.
    assert (RR : ref (s_front s) (firstn k (map en_pid ns)) (en_pid en) (en_pid ex :: skipn (S (S k)) (map en_pid ns)) (to_node en k)).
    { split; [rewrite <- VS; apply (tk_vs _ _ _ _ T)|]. split; [auto|]. exists en. auto. }
    destruct (ref_pid points _ C _ _ _ _ RR) as (_ & _ & Q1 & Q2). split; auto. split; auto. split; [split; [|split; [eapply XL|split; [eapply XR|exact CC]]]|]; eauto.
    + unfold vs_of. rewrite (same_pids _ _ SN). unfold ins_nodes. rewrite map_insert. cbn [en_pid].
      change (map en_pid ns) with (vs_of s) at 1. rewrite (tk_vs _ _ _ _ T), VS. clear - LK.
      set (F := firstn k (map en_pid ns)) in *. rewrite <- LK. change (en_pid en :: ?x :: ?l) with ([en_pid en] ++ x :: l).
      rewrite app_assoc. replace (S (length F)) with (length (F ++ [en_pid en])) by (rewrite app_length; simpl; lia). rewrite insert_mid, <- app_assoc. reflexivity.
    + split; [rewrite LL; exact LI|]. destruct (ref_pid points _ C _ _ _ _ RR) as (_ & Q3 & _). exact Q3.
Qed.

(** ** fuel *)
Definition Fuel (k fuel : nat) : Prop := exists m, enough m /\ k + m <= fuel.
Lemma Fuel_enough k fuel : Fuel k fuel -> enough fuel.
Proof using. intros (m & [H1 H2] & L). split; lia. Qed.
Lemma Fuel_le k k' fuel fuel' : Fuel k fuel -> k' + fuel <= k + fuel' -> k' <= k \/ fuel <= fuel' -> Fuel k' fuel'.
Proof using. intros (m & H & L) L' _. exists m. split; auto. lia. Qed.
Lemma Fuel_S k fuel : Fuel (S k) fuel -> exists f, fuel = S f /\ Fuel k f.
Proof using. intros (m & H & L). destruct fuel as [|f]; [lia|]. exists f. split; auto. exists m. split; auto. lia. Qed.
Lemma Fuel_down k k' fuel : Fuel k fuel -> k' <= k -> Fuel k' fuel.
Proof using. intros (m & H & L) L'. exists m. split; auto. lia. Qed.

Lemma ref_neq L v R n af L' v' R' n' : chain points (nodes af) -> ref af L v R n -> ref af L' v' R' n' -> length L <> length L' -> v <> v'.
Proof using.
  intros C (H1 & H2 & H3) (H1' & H2' & H3') NL ->. apply NL.
  destruct (ref_at af L v' R H1) as (e & He & Pe & _). destruct (ref_at af L' v' R' H1') as (e' & He' & Pe' & _).
  eapply (ch_nodup points _ C); eauto. congruence.
Qed.
Lemma should_fill_done af L u v w R n : chain points (nodes af) -> ref af (L ++ [u]) v (w :: R) n -> exists b, should_fill af n = Done b /\
  (b = false -> tame points Ed -> u <> v -> v <> w -> u <> w -> (0 < orient (zc u) (zc v) (zc w))%Z).
Proof using.
  intros C H. destruct (ref_next af _ _ _ _ H) as (nx & E1 & HX). destruct (ref_prev af _ _ _ _ H L u eq_refl) as (pv & E2 & HP).
  unfold should_fill. rewrite E1, E2. cbn [unwrap rbind]. destruct (is_negative _) eqn:NG; [exists true; split; auto; discriminate|].
  destruct (ref_pid points _ C _ _ _ _ H) as (_ & Pn & _), (ref_pid points _ C _ _ _ _ HX) as (_ & Px & _), (ref_pid points _ C _ _ _ _ HP) as (_ & Pp & _).
  assert (G : tame points Ed -> u <> v -> v <> w -> u <> w -> (0 < orient (zc u) (zc v) (zc w))%Z).
  { intros TM N1 N2 N3. pose proof (tm_angle _ _ TM _ _ _ _ _ _ Pn Px Pp NG) as Q. rewrite orient_rot in Q.
    assert (Q0 : orient (zc u) (zc v) (zc w) <> 0%Z) by (apply (tm_col _ _ TM); auto; eapply nth_error_lt; eauto). lia. }
  destruct (negb _); [eauto|].
  match goal with |- context [if ?b then _ else _] => destruct b end; [eauto|].
  destruct (app_cases L) as [->|(L' & x & ->)].
  - rewrite (ref_prev0 af _ _ _ HP). cbn [rbind]. eauto.
  - destruct (ref_prev af _ _ _ _ HP L' x eq_refl) as (pp & E3 & _). rewrite E3. cbn [rbind]. destruct (between_0_to_90_degree _); eauto.
Qed.

Lemma tk_ne3 D L a b c R s : TK D (L ++ a :: b :: c :: R) s -> a <> b /\ b <> c /\ a <> c.
Proof using.
  intro T. destruct (tk_split points D _ s L a (b :: c :: R) T eq_refl) as (_ & _ & _ & N1).
  destruct (tk_split points D _ s (L ++ [a]) b (c :: R) T) as (_ & _ & _ & N2); [rewrite <- app_assoc; auto|].
  repeat split; intros ->; [apply N1|apply N2|apply N1]; simpl; auto.
Qed.
Lemma tk_x3 D L a b c R s : TK D (L ++ a :: b :: c :: R) s -> xlt (zc a) (zc b) /\ xlt (zc b) (zc c).
Proof using.
  intro T. destruct (tk_split points D _ s L a (b :: c :: R) T eq_refl) as (_ & N1 & _).
  assert (T2 : TK D ((L ++ [a]) ++ b :: c :: R) s) by (rewrite <- app_assoc; exact T).
  destruct (tk_split points D _ s _ _ _ T2 eq_refl) as (_ & N2 & _).
  split; [apply N1|apply N2]; simpl; auto.
Qed.
Lemma tk_x4 D L a b c d R s : TK D (L ++ a :: b :: c :: d :: R) s -> xlt (zc a) (zc b) /\ xlt (zc b) (zc c) /\ xlt (zc c) (zc d).
Proof using.
  intro T. destruct (tk_x3 _ _ _ _ _ _ _ T) as [H1 H2]. assert (T2 : TK D ((L ++ [a]) ++ b :: c :: d :: R) s) by (rewrite <- app_assoc; exact T).
  destruct (tk_x3 _ _ _ _ _ _ _ T2) as [H3 H4]. auto.
Qed.
Lemma fill_right_holes_tot D : forall k fuel id L R s, length R <= k -> Fuel (S k) fuel -> TK D (L ++ ni_pid id :: R) s -> nid_ok id ->
  gd (fill_right_holes dbg points fuel id) s (fun _ s' => exists R', TK D (L ++ ni_pid id :: R') s').
Proof using PP.
  induction k as [|k IH]; intros fuel id L R s Lk F T Hid; apply Fuel_S in F as (f & -> & F); cbn [fill_right_holes]; apply gd_front;
    pose proof (tk_C _ _ _ _ T) as C; pose proof (next_id points PP (s_front s) C id L R Hid (tk_vs _ _ _ _ T)) as NX; destruct R as [|b R]; try (cbn [length] in Lk; lia).
  - eapply gd_lift; [exact NX|]. apply gd_skip. eauto.
  - eapply gd_lift; [exact NX|]. apply gd_skip. eauto.
  - destruct NX as (next & E1 & RX). eapply gd_lift; [exact E1|]. pose proof (ref_next _ _ _ _ _ RX) as NN. destruct R as [|c R].
    + rewrite NN. apply gd_skip. eauto.
    + destruct NN as (nn & E2 & RN). rewrite E2. destruct (should_fill_done _ _ _ _ _ _ _ C RX) as (st & E3 & CW). eapply gd_lift; [exact E3|].
      destruct st; [apply gd_skip; eauto|]. apply gd_bind; [intros; apply gr_fill_right_holes|].
      destruct (ref_pid points _ C _ _ _ _ RX) as (_ & _ & Q1 & Q2).
      eapply gd_mono; [apply (fill_one_tot D f (get_node_id next) L (ni_pid id) c R s (Fuel_enough _ _ F)); [rewrite Q2; exact T|exact Q1|destruct (tk_ne3 _ _ _ _ _ _ _ T) as (? & ? & ?); rewrite Q2; auto]|].
      intros r s' (fo & -> & H1 & H2 & H3 & H4 & T' & _). cbv zeta beta.
      assert (T'' : TK D ((L ++ [ni_pid id]) ++ ni_pid (fo_next fo) :: R) s') by (rewrite <- app_assoc, H4; exact T').
      eapply gd_mono; [apply (IH f (fo_next fo) (L ++ [ni_pid id]) R s'); auto|]. 
      * cbn [length] in Lk. lia.
      * intros _ s2 (R' & H5). rewrite <- app_assoc in H5. eauto.
Qed.

Lemma fill_left_holes_tot D : forall k fuel id L R s, length L <= k -> Fuel (S k) fuel -> TK D (L ++ R) s -> R <> [] -> nid_ok id ->
  (forall u, In u L -> xlt (zc u) (zc (ni_pid id))) -> (forall u, In u R -> ~ xlt (zc u) (zc (ni_pid id))) ->
  gd (fill_left_holes dbg points fuel id) s (fun _ s' => exists L', TK D (L' ++ R) s').
Proof using PP.
  induction k as [|k IH]; intros fuel id L R s Lk F T NR Hid HL HR; apply Fuel_S in F as (f & -> & F); cbn [fill_left_holes]; apply gd_front;
    pose proof (tk_C _ _ _ _ T) as C; destruct (prev_id points PP (s_front s) C id L R Hid (tk_vs _ _ _ _ T) HL HR) as [NP1 NP2];
    destruct (app_cases L) as [->|(L' & b & ->)]; try (rewrite app_length in Lk; cbn [length] in Lk; lia).
  - eapply gd_lift; [apply NP1; auto|]. apply gd_skip. exists []. exact T.
  - eapply gd_lift; [apply NP1; auto|]. apply gd_skip. exists []. exact T.
  - destruct (NP2 _ _ eq_refl) as (prev & E1 & RP). eapply gd_lift; [exact E1|]. destruct (app_cases L') as [->|(L2 & a & ->)].
    + eapply gd_lift; [eapply ref_prev0; exact RP|]. apply gd_skip. eauto.
    + destruct (ref_prev _ _ _ _ _ RP L2 a eq_refl) as (pp & E2 & RPP). eapply gd_lift; [exact E2|].
      destruct R as [|c R]; [congruence|]. destruct (should_fill_done _ _ _ _ _ _ _ C RP) as (st & E3 & CW). eapply gd_lift; [exact E3|].
      destruct st; [apply gd_skip; eauto|]. apply gd_bind; [intros; apply gr_fill_left_holes|].
      destruct (ref_pid points _ C _ _ _ _ RP) as (_ & _ & Q1 & Q2).
      assert (T1 : TK D (L2 ++ a :: b :: c :: R) s) by (rewrite <- !app_assoc in T; exact T).
      eapply gd_mono; [apply (fill_one_tot D f (get_node_id prev) L2 a c R s (Fuel_enough _ _ F)); [rewrite Q2; exact T1|exact Q1|destruct (tk_ne3 _ _ _ _ _ _ _ T1) as (? & ? & ?); rewrite Q2; auto]|].
      intros r s' (fo & -> & H1 & H2 & H3 & H4 & T' & _).
      assert (T'' : TK D ((L2 ++ [a]) ++ c :: R) s') by (rewrite <- app_assoc; exact T').
      apply (IH f (get_node_id prev) (L2 ++ [a]) (c :: R) s'); auto; rewrite ?Q2; try discriminate.
      * rewrite !app_length in *. cbn [length] in *. lia.
      * intros u Hu. destruct (tk_split points D _ s (L2 ++ [a]) b (c :: R) T1) as (X & _); [rewrite <- app_assoc; auto|]. auto.
      * intros u Hu Q. destruct (tk_split points D _ s (L2 ++ [a]) b (c :: R) T1) as (_ & X & _); [rewrite <- app_assoc; auto|].
        apply (xlt_irrefl (zc b)). eapply xlt_trans; [apply X; eauto|exact Q].
Qed.


(** ** basins *)
Definition down (l : list nat) : Prop := forall u w, adj l u w -> (snd (zc w) <= snd (zc u))%Z.
Definition up (l : list nat) : Prop := forall u w, adj l u w -> (snd (zc u) < snd (zc w))%Z.
Lemma down_cons u w l : (snd (zc w) <= snd (zc u))%Z -> down (w :: l) -> down (u :: w :: l).
Proof using. intros H K a b [[<- <-]|Q]; auto. Qed.
Lemma up_cons u w l : (snd (zc u) < snd (zc w))%Z -> up (w :: l) -> up (u :: w :: l).
Proof using. intros H K a b [[<- <-]|Q]; auto. Qed.
Lemma lt_py a b pa pb : nth_error (ps_points points) a = Some pa -> nth_error (ps_points points) b = Some pb ->
  f_lt (py pa) (py pb) = (snd (zc a) <? snd (zc b))%Z.
Proof using PP.
  intros Ha Hb. destruct (pt_finp points PP _ _ Ha) as [[_ Fa] Za], (pt_finp points PP _ _ Hb) as [[_ Fb] Zb]. rewrite x_lt by auto. rewrite <- Za, <- Zb. reflexivity.
Qed.
Lemma le_py a b pa pb : nth_error (ps_points points) a = Some pa -> nth_error (ps_points points) b = Some pb ->
  f_le (py pa) (py pb) = (snd (zc a) <=? snd (zc b))%Z.
Proof using PP.
  intros Ha Hb. unfold f_le. rewrite (lt_py a b pa pb Ha Hb). destruct (pt_finp points PP _ _ Ha) as [[_ Fa] Za], (pt_finp points PP _ _ Hb) as [[_ Fb] Zb].
  rewrite x_eq by auto. rewrite <- Za, <- Zb. cbn [snd zp]. destruct (Z.ltb_spec (zv (py pa)) (zv (py pb))), (Z.eqb_spec (zv (py pa)) (zv (py pb))), (Z.leb_spec (zv (py pa)) (zv (py pb))); simpl; auto; lia.
Qed.
Lemma walk_bottom_tot af : chain points (nodes af) -> forall fuel L v R n, ref af L v R n -> length R < fuel ->
  exists m, walk_bottom fuel af n = Done m /\ (m = n \/ exists X w R', R = X ++ w :: R' /\ ref af (L ++ v :: X) w R' m /\ down (v :: X ++ [w])).
Proof using PP.
  intro C. induction fuel as [|f IH]; intros L v R n H LF; [lia|]. cbn [walk_bottom]. pose proof (ref_next af _ _ _ _ H) as NX. destruct R as [|w R].
  - rewrite NX. eauto.
  - destruct NX as (m & E1 & RM). rewrite E1. destruct (ref_pid points _ C _ _ _ _ H) as (_ & Pv & _), (ref_pid points _ C _ _ _ _ RM) as (_ & Pw & _).
    rewrite (le_py w v _ _ Pw Pv). destruct (Z.leb_spec (snd (zc w)) (snd (zc v))) as [LE|_]; [|eauto]. cbn [length] in LF.
    destruct (IH _ _ _ _ RM ltac:(lia)) as (m' & E2 & H2). exists m'. split; auto. right. destruct H2 as [->|(X & w' & R' & -> & H2 & H3)].
    + exists [], w, R. split; auto. split; auto. apply down_cons; auto. intros ? ? [].
    + exists (w :: X), w', R'. split; auto. rewrite <- app_assoc in H2. split; auto. apply down_cons; auto.
Qed.
Lemma walk_right_tot af : chain points (nodes af) -> forall fuel L v R n, ref af L v R n -> length R < fuel ->
  exists m, walk_right fuel af n = Done m /\ (m = n \/ exists X w R', R = X ++ w :: R' /\ ref af (L ++ v :: X) w R' m /\ up (v :: X ++ [w])).
Proof using PP.
  intro C. induction fuel as [|f IH]; intros L v R n H LF; [lia|]. cbn [walk_right]. pose proof (ref_next af _ _ _ _ H) as NX. destruct R as [|w R].
  - rewrite NX. eauto.
  - destruct NX as (m & E1 & RM). rewrite E1. destruct (ref_pid points _ C _ _ _ _ H) as (_ & Pv & _), (ref_pid points _ C _ _ _ _ RM) as (_ & Pw & _).
    rewrite (lt_py v w _ _ Pv Pw). destruct (Z.ltb_spec (snd (zc v)) (snd (zc w))) as [LE|_]; [|eauto]. cbn [length] in LF.
    destruct (IH _ _ _ _ RM ltac:(lia)) as (m' & E2 & H2). exists m'. split; auto. right. destruct H2 as [->|(X & w' & R' & -> & H2 & H3)].
    + exists [], w, R. split; auto. split; auto. apply up_cons; auto. intros ? ? [].
    + exists (w :: X), w', R'. split; auto. rewrite <- app_assoc in H2. split; auto. apply up_cons; auto.
Qed.
Lemma adj_snoc l x u w : adj l u w -> adj (l ++ [x]) u w.
Proof using. intro H. apply adj_split in H as (A1 & A2 & ->). apply adj_split. exists A1, (A2 ++ [x]). rewrite <- app_assoc. auto. Qed.
(** a valley is counter-clockwise *)
Lemma valley a b c : xlt a b -> xlt b c -> (snd b <= snd a)%Z -> (snd b < snd c)%Z -> (0 < orient a b c)%Z.
Proof using.
  intros X1 X2 Y1 Y2. assert (X1' : (fst a < fst b)%Z) by (unfold xlt in X1; lia). assert (X2' : (fst b <= fst c)%Z) by (unfold xlt in X2; lia).
  assert (P1 : (0 < (fst b - fst a) * (snd c - snd b))%Z) by (apply Z.mul_pos_pos; lia).
  assert (P2 : (0 <= (snd a - snd b) * (fst c - fst b))%Z) by (apply Z.mul_nonneg_nonneg; lia).
  assert (Q : orient a b c = ((fst b - fst a) * (snd c - snd b) + (snd a - snd b) * (fst c - fst b))%Z) by (zpts; ring). lia.
Qed.
(** two left turns in a row stay one when the first or the last corner is cut off *)
Lemma cut_first a b c d : xlt a b -> xlt b c -> xlt c d -> (0 < orient a b c)%Z -> (0 < orient b c d)%Z -> (0 < orient a c d)%Z.
Proof using.
  intros X1 X2 X3 O1 O2. pose (d' := ((2 * fst c - fst d)%Z, (2 * snd c - snd d)%Z)).
  assert (XD : xlt d' c) by (unfold xlt, d' in *; cbn [fst snd] in *; lia).
  assert (Q : forall v, orient c v d' = orient v c d) by (intro; unfold d'; zpts; ring).
  assert (O3 : (0 < orient c a b)%Z) by (rewrite orient_rot'; auto).
  assert (O4 : (0 < orient c b d')%Z) by (rewrite Q; auto).
  rewrite <- Q. apply (apex_left c a b d'); auto. apply (xlt_trans _ b); auto.
Qed.
Lemma cut_last a b c d : xlt a b -> xlt b c -> xlt c d -> (0 < orient a b c)%Z -> (0 < orient b c d)%Z -> (0 < orient a b d)%Z.
Proof using.
  intros X1 X2 X3 O1 O2. pose (a' := ((2 * fst b - fst a)%Z, (2 * snd b - snd a)%Z)).
  assert (XD : xlt b a') by (unfold xlt, a' in *; cbn [fst snd] in *; lia).
  assert (Q : forall v, orient b a' v = orient a b v) by (intro; unfold a'; zpts; ring).
  assert (O4 : (0 < orient b a' c)%Z) by (rewrite Q; auto).
  rewrite <- Q. apply (apex_right b a' c d); auto. apply (xlt_trans _ c); auto.
Qed.
Lemma point_eq_pid a b pa pb : nth_error (ps_points points) a = Some pa -> nth_error (ps_points points) b = Some pb -> point_eq pa pb = (a =? b).
Proof using PP.
  intros Ha Hb. destruct (pt_finp points PP _ _ Ha) as [Fa Za], (pt_finp points PP _ _ Hb) as [Fb Zb]. apply nth_error_lt in Ha, Hb.
  destruct (Nat.eqb_spec a b) as [->|NE]; apply eq_true_iff_eq; rewrite point_eq_exact by auto; rewrite Za, Zb; (split; [|]; auto; try discriminate).
  - intro Q. apply (pr_inj points PP) in Q; auto.
Qed.
Lemma nodup_split D L v R s : TK D (L ++ v :: R) s -> ~ In v L /\ ~ In v R.
Proof using. intro T. destruct (tk_split points D _ s L v R T eq_refl) as (_ & _ & H). exact H. Qed.

Lemma fill_basin_req_tot D bs l r L0 R0 : (exists pl, nth_error (ps_points points) l = Some pl /\ b_left bs = pl) ->
  (exists pr, nth_error (ps_points points) r = Some pr /\ b_right bs = pr) ->
  forall k fuel id X Y s, length X + length Y <= k -> Fuel (S k) fuel -> TK D (L0 ++ l :: X ++ ni_pid id :: Y ++ r :: R0) s -> nid_ok id ->
  (tame points Ed -> forall X' a c Y', l :: X = X' ++ [a] -> Y ++ [r] = c :: Y' -> (0 < orient (zc a) (zc (ni_pid id)) (zc c))%Z) -> down (l :: X) -> up (Y ++ [r]) ->
  gd (fill_basin_req dbg points fuel id bs) s (fun _ s' => exists Z, TK D (L0 ++ l :: Z ++ r :: R0) s').
Proof using PP.
  intros (pl & Hl & El) (pr & Hr & Er). induction k as [k IH] using lt_wf_ind. intros fuel id X Y s Lk F T Hid BT DN UP. apply Fuel_S in F as (f & -> & F). cbn [fill_basin_req].
  destruct (basin_completed _ _). { apply gd_skip. exists (X ++ ni_pid id :: Y). rewrite <- app_assoc. exact T. }
  assert (HX : exists L a, L0 ++ l :: X = L ++ [a] /\ exists X', l :: X = X' ++ [a]).
  { destruct (app_cases (l :: X)) as [Q|(L' & a & Q)]; [discriminate|]. exists (L0 ++ L'), a. rewrite Q, app_assoc. eauto. }
  destruct HX as (L & a & HX & XE & HXE). assert (HY : exists c R, Y ++ r :: R0 = c :: R /\ exists Y', Y ++ [r] = c :: Y') by (destruct Y; simpl; eauto 6). destruct HY as (c & R & HY & YE & HYE).
  assert (T1 : TK D (L ++ a :: ni_pid id :: c :: R) s).
  { rewrite HY in T. change (l :: X ++ ?z) with ((l :: X) ++ z) in T. rewrite app_assoc, HX, <- app_assoc in T. exact T. }
  apply gd_bind; [grow_go|].
  eapply gd_mono; [apply (fill_one_tot D f id L a c R s (Fuel_enough _ _ F) T1 Hid); intro TM; exact (BT TM _ _ _ _ HXE HYE)|].
  intros r' s' (fo & -> & H1 & H2 & H3 & H4 & T' & CC). eapply gd_lift; [reflexivity|]. cbv zeta.
  unfold Chain.nid_ok in H1, H3. rewrite H2 in H1. rewrite H4 in H3.
  rewrite El, Er, (point_eq_pid _ _ _ _ H1 Hl), (point_eq_pid _ _ _ _ H3 Hr).
  assert (AX : a = l <-> X = []).
  { destruct (app_cases X) as [->|(X' & x & ->)].
    - apply app_inj_tail in HX as [_ ->]. tauto.
    - replace (L0 ++ l :: X' ++ [x]) with ((L0 ++ l :: X') ++ [x]) in HX by (rewrite <- app_assoc; auto). apply app_inj_tail in HX as [<- <-].
      split; [|destruct X'; discriminate]. intros ->. destruct (nodup_split _ _ _ _ _ T1) as [NI _]. exfalso. apply NI. apply in_or_app. right. left. auto. }
  assert (CY : c = r <-> Y = []).
  { destruct Y as [|y Y]; cbn in HY; injection HY as <- <-; [tauto|]. split; [|discriminate]. intros ->. exfalso.
    assert (T2 : TK D ((L ++ [a; ni_pid id]) ++ r :: Y ++ r :: R0) s) by (rewrite <- app_assoc; exact T1).
    destruct (nodup_split _ _ _ _ _ T2) as [_ NI]. apply NI. apply in_or_app. right. left. auto. }
  assert (TZ : TK D (L0 ++ l :: (X ++ Y) ++ r :: R0) s').
  { replace (L0 ++ l :: (X ++ Y) ++ r :: R0) with ((L0 ++ l :: X) ++ Y ++ r :: R0) by (rewrite <- !app_assoc; cbn [app]; rewrite <- ?app_assoc; auto). rewrite HX, HY, <- app_assoc. exact T'. }
  assert (NB : ~ In (ni_pid id) (L ++ a :: c :: R)).
  { assert (T2 : TK D ((L ++ [a]) ++ ni_pid id :: c :: R) s) by (rewrite <- app_assoc; exact T1).
    destruct (nodup_split _ _ _ _ _ T2) as [N1 N2]. intro Q. apply in_app_or in Q as [Q|[Q|Q]]; auto; apply N1; apply in_or_app; [auto|right; left; auto]. }
  assert (ND : nid_ok id) by exact Hid. unfold Chain.nid_ok in ND.
  pose proof (tk_C _ _ _ _ T') as C. pose proof (tk_vs _ _ _ _ T') as VS.
  destruct (Nat.eqb_spec a l) as [Ea|Na]; cbn [andb].
  { apply AX in Ea as ->. destruct (Nat.eqb_spec c r) as [Ec|Nc]; [apply gd_skip; eauto|].
    apply gd_front. destruct Y as [|y Y]; [destruct Nc; apply CY; auto|]. cbn in HY. injection HY as <- <-.
    destruct (get_id points PP (s_front s') C (fo_next fo) (L ++ [a]) (Y ++ r :: R0)) as (next & E1 & RX);
      [unfold Chain.nid_ok; rewrite H4; exact H3|rewrite H4, <- app_assoc; exact VS|].
    rewrite H4 in RX. eapply gd_lift; [exact E1|]. eapply gd_lift; [reflexivity|]. pose proof (ref_next _ _ _ _ _ RX) as NX.
    destruct (ref_pid points _ C _ _ _ _ RX) as (_ & PX & Q1 & Q2).
    assert (exists d R', Y ++ r :: R0 = d :: R') as (d & R' & HY) by (destruct Y; simpl; eauto). rewrite HY in NX. destruct NX as (nn & E2 & RN). rewrite E2.
    eapply gd_lift; [reflexivity|]. destruct (ref_pid points _ C _ _ _ _ RN) as (_ & PN & _).
    assert (NE1 : ni_pid id <> y) by (intros Q; apply NB; rewrite Q; apply in_or_app; right; right; left; auto).
    assert (NE2 : y <> d) by (apply (ref_neq _ _ _ _ _ _ _ _ _ C RX RN); rewrite !app_length; simpl; lia).
    assert (NE3 : ni_pid id <> d) by (intros Q; apply NB; rewrite Q, HY; apply in_or_app; right; right; right; left; auto).
    destruct (orient_ccw dbg points PP (ni_pid id) y d _ _ _ ND PX PN NE1 NE2 NE3) as (o & E3 & _ & BO).
    eapply gd_lift; [exact E3|]. destruct (is_cw o); [apply gd_skip; eauto|].
    destruct k as [|k]; [cbn [length] in Lk; lia|]. apply (IH k ltac:(lia) f (get_node_id next) [] Y s'); auto; [cbn [length] in *; lia|rewrite Q2; exact TZ| |intros u w AD; apply UP; apply adj_cons; exact AD].
    intros TM X' a' c' Y' QX QY. destruct X' as [|x0 X']; [|destruct X'; discriminate]. cbn in QX. injection QX as <-.
    assert (c' = d) as -> by (destruct Y; cbn in QY, HY; congruence).
    assert (LA : a = l). { destruct XE as [|x0 XE]; [injection HXE as <-; auto|destruct XE; discriminate]. }
    subst l. rewrite Q2. rewrite HY in T1.
    destruct (tk_x4 _ _ _ _ _ _ _ _ T1) as (S1 & S2 & S3).
    assert (O0 : orient (zc (ni_pid id)) (zc y) (zc d) <> 0%Z) by (apply (tm_col _ _ TM); auto; eapply nth_error_lt; eauto).
    apply (cut_first (zc a) (zc (ni_pid id)) (zc y) (zc d)); auto.
    destruct (Z_lt_le_dec (orient (zc (ni_pid id)) (zc y) (zc d)) 0) as [Z0|Z0]; [apply BO in Z0; discriminate|lia]. }
  apply gd_front. destruct (Nat.eqb_spec c r) as [Ec|Nc].
  { apply CY in Ec as ->. destruct (app_cases X) as [->|(X' & x & ->)]; [destruct Na; apply AX; auto|].
    replace (L0 ++ l :: X' ++ [x]) with ((L0 ++ l :: X') ++ [x]) in HX by (rewrite <- app_assoc; auto). apply app_inj_tail in HX as [<- <-].
    destruct (get_id points PP (s_front s') C (fo_prev fo) (L0 ++ l :: X') (c :: R)) as (prev & E1 & RX);
      [unfold Chain.nid_ok; rewrite H2; exact H1|rewrite H2; exact VS|].
    rewrite H2 in RX. eapply gd_lift; [exact E1|]. eapply gd_lift; [reflexivity|].
    destruct (ref_pid points _ C _ _ _ _ RX) as (_ & PX & Q1 & Q2).
    destruct (app_cases (L0 ++ l :: X')) as [Q|(L' & d & Q)]; [destruct L0; discriminate|].
    destruct (ref_prev _ _ _ _ _ RX L' d Q) as (pp & E2 & RN). eapply gd_lift; [exact E2|]. destruct (ref_pid points _ C _ _ _ _ RN) as (_ & PN & _).
    assert (NE1 : ni_pid id <> x) by (intros Q'; apply NB; rewrite Q'; apply in_or_app; right; left; auto).
    assert (NE2 : x <> d) by (apply (ref_neq _ _ _ _ _ _ _ _ _ C RX RN); rewrite Q, !app_length; simpl; lia).
    assert (NE3 : ni_pid id <> d) by (intros Q'; apply NB; rewrite Q', Q; apply in_or_app; left; apply in_or_app; right; left; auto).
    destruct (orient_ccw dbg points PP (ni_pid id) x d _ _ _ ND PX PN NE1 NE2 NE3) as (o & E3 & BO & _).
    eapply gd_lift; [exact E3|]. destruct (is_ccw o); [apply gd_skip; eauto|]. rewrite app_length in Lk. cbn [length] in Lk.
    destruct k as [|k]; [lia|]. apply (IH k ltac:(lia) f (get_node_id prev) X' [] s'); auto; [cbn [length] in *; lia|rewrite Q2; rewrite <- !app_assoc in TZ; exact TZ| |].
    2:{ intros u w AD. apply DN. exact (adj_snoc (l :: X') x u w AD). }
    intros TM X2 a' c' Y' QX QY. cbn in QY. injection QY as <- <-.
    assert (a' = d) as ->. { rewrite QX, app_assoc in Q. apply app_inj_tail in Q as [_ ->]. auto. }
    assert (CR : c = r). { cbn in HYE. congruence. } subst r. rewrite Q2. rewrite Q, <- app_assoc in T1. cbn [app] in T1.
    destruct (tk_x4 _ _ _ _ _ _ _ _ T1) as (S1 & S2 & S3).
    assert (O0 : orient (zc (ni_pid id)) (zc x) (zc d) <> 0%Z) by (apply (tm_col _ _ TM); auto; eapply nth_error_lt; eauto).
    assert (O1 : orient (zc d) (zc x) (zc (ni_pid id)) = (- orient (zc (ni_pid id)) (zc x) (zc d))%Z) by (zpts; ring).
    apply (cut_last (zc d) (zc x) (zc (ni_pid id)) (zc c)); auto.
    destruct (Z_lt_le_dec 0 (orient (zc (ni_pid id)) (zc x) (zc d))) as [Z0|Z0]; [apply BO in Z0; discriminate|lia]. }
  destruct (app_cases X) as [->|(X' & x & ->)]; [destruct Na; apply AX; auto|]. destruct Y as [|y Y]; [destruct Nc; apply CY; auto|].
  replace (L0 ++ l :: X' ++ [x]) with ((L0 ++ l :: X') ++ [x]) in HX by (rewrite <- app_assoc; auto). apply app_inj_tail in HX as [<- <-].
  cbn in HY. injection HY as <- <-. rewrite app_length in Lk. cbn [length] in Lk. destruct k as [|k]; [lia|].
  assert (DX : down (l :: X')).
  { intros u w AD. apply DN. exact (adj_snoc (l :: X') x u w AD). }
  assert (UY : up (Y ++ [r])) by (intros u w AD; apply UP; apply adj_cons; exact AD).
  assert (XXY : xlt (zc x) (zc y)).
  { destruct (tk_x3 _ _ _ _ _ _ _ T1). eapply xlt_trans; eauto. }
  rewrite (lt_py x y _ _ H1 H3). destruct (Z.ltb_spec (snd (zc x)) (snd (zc y))) as [YY|YY].
  - apply (IH k ltac:(lia) f (fo_prev fo) X' (y :: Y) s'); auto; [cbn [length]; lia| |unfold Chain.nid_ok; rewrite H2; exact H1|].
    { rewrite H2, <- !app_assoc in *. exact TZ. }
    intros TM X2 a' c' Y' QX QY. cbn in QY. injection QY as <- <-. rewrite H2. apply valley; auto.
    + rewrite QX, app_assoc, <- app_assoc in T1. cbn [app] in T1. apply (tk_x4 _ _ _ _ _ _ _ _ T1).
    + apply DN. change (l :: X' ++ [x]) with ((l :: X') ++ [x]). rewrite QX, <- app_assoc. apply adj_split. exists X2, []. auto.
  - apply (IH k ltac:(lia) f (fo_next fo) (X' ++ [x]) Y s'); auto; [rewrite app_length; cbn [length]; lia| |unfold Chain.nid_ok; rewrite H4; exact H3|].
    { rewrite H4. rewrite <- !app_assoc in *. exact TZ. }
    intros TM X2 a' c' Y' QX QY. change (l :: X' ++ [x]) with ((l :: X') ++ [x]) in QX. apply app_inj_tail in QX as [_ <-]. rewrite H4. apply valley; auto.
    + assert (exists R', Y ++ r :: R0 = c' :: R') as (R' & QR) by (destruct Y; cbn in *; injection QY as <- _; eauto). rewrite QR in T1.
      apply (tk_x4 _ _ _ _ _ _ _ _ T1).
    + apply UP. cbn [app]. rewrite QY. simpl. auto.
Qed.

Lemma tk_short D vs s : TK D vs s -> length vs <= 2 * N + 2.
Proof using. intro T. pose proof (tk_cnt _ _ _ _ T). pose proof (tk_D _ _ _ _ T). lia. Qed.

Lemma fill_basin_tot D fuel id L R s : Fuel (2 * N + 4) fuel -> TK D (L ++ ni_pid id :: R) s -> nid_ok id ->
  gd (fill_basin dbg points fuel id) s (fun _ s' => exists R', TK D (L ++ ni_pid id :: R') s').
Proof using PP.
  intros F T Hid. unfold fill_basin. apply gd_front. pose proof (tk_C _ _ _ _ T) as C. pose proof (tk_short _ _ _ T) as LV.
  rewrite app_length in LV. cbn [length] in LV. assert (LF : 2 * N + 4 <= fuel) by (destruct F as (m & _ & F); lia).
  pose proof (next_id points PP (s_front s) C id L R Hid (tk_vs _ _ _ _ T)) as NX. destruct R as [|b R].
  { eapply gd_lift; [exact NX|]. apply gd_skip. eauto. }
  destruct NX as (next & E1 & RX). eapply gd_lift; [exact E1|]. pose proof (ref_next _ _ _ _ _ RX) as NN. destruct R as [|c R].
  { rewrite NN. apply gd_skip. eauto. }
  destruct NN as (nn & E2 & RN). rewrite E2. destruct (ref_pid points _ C _ _ _ _ RX) as (_ & PX & _). destruct (ref_pid points _ C _ _ _ _ RN) as (_ & PN & _).
  destruct (get_id points PP (s_front s) C id L (b :: c :: R) Hid (tk_vs _ _ _ _ T)) as (node & _ & RI).
  destruct (orient_ccw dbg points PP (ni_pid id) b c _ _ _ Hid PX PN) as (o & E3 & _).
  { apply (ref_neq _ _ _ _ _ _ _ _ _ C RI RX). rewrite app_length. simpl. lia. }
  { apply (ref_neq _ _ _ _ _ _ _ _ _ C RX RN). rewrite !app_length. simpl. lia. }
  { apply (ref_neq _ _ _ _ _ _ _ _ _ C RI RN). rewrite !app_length. simpl. lia. }
  eapply gd_lift; [exact E3|]. cbv zeta. set (ln := if is_ccw o then nn else next).
  assert (HL : exists W l R1, b :: c :: R = W ++ l :: R1 /\ ref (s_front s) (L ++ ni_pid id :: W) l R1 ln).
  { unfold ln. destruct (is_ccw o); [exists [b], c, R|exists [], b, (c :: R)]; split; auto. rewrite <- app_assoc in RN. exact RN. }
  destruct HL as (W & l & R1 & HW & RL).
  assert (LL : length R1 <= 2 * N + 1). { assert (X := f_equal (@length nat) HW). rewrite app_length in X. cbn [length] in X, LV. lia. }
  rewrite HW in *. clear RX RN RI LV.
  destruct (walk_bottom_tot (s_front s) C fuel _ _ _ _ RL ltac:(lia)) as (bt & E4 & H4). eapply gd_lift; [exact E4|].
  destruct (Nat.eqb_spec (nr_pid bt) (nr_pid ln)) as [Eb|Nb]; [apply gd_skip; eauto|].
  destruct H4 as [->|(X & w & R2 & -> & RB & DN)]; [congruence|]. rewrite app_length in LL. cbn [length] in LL.
  destruct (walk_right_tot (s_front s) C fuel _ _ _ _ RB ltac:(lia)) as (rn & E5 & H5). eapply gd_lift; [exact E5|].
  destruct (Nat.eqb_spec (nr_pid rn) (nr_pid bt)) as [Er|Nr]; [apply gd_skip; eauto|].
  destruct H5 as [->|(Y & r & R3 & -> & RR & UP)]; [congruence|].
  destruct (ref_pid points _ C _ _ _ _ RL) as (_ & PL & _). destruct (ref_pid points _ C _ _ _ _ RB) as (_ & _ & B1 & B2). destruct (ref_pid points _ C _ _ _ _ RR) as (_ & PR & _).
  eapply gd_mono; [eapply (fill_basin_req_tot D _ l r (L ++ ni_pid id :: W) R3) with (k := length X + length Y) (X := X) (Y := Y); cbn [b_left b_right]; eauto|].
  - eapply Fuel_down; [exact F|]. rewrite app_length in LL. cbn [length] in LL. lia.
  - rewrite B2. rewrite <- !app_assoc in *. cbn [app]. rewrite <- ?app_assoc in *. exact T.
  - intros TM X' a' c' Y' QX QY. rewrite B2. clear - T DN UP QX QY.
    assert (exists R', Y ++ r :: R3 = c' :: R') as (R' & QR) by (destruct Y; cbn in *; injection QY as <- _; eauto).
    assert (T2 : TK D ((L ++ ni_pid id :: W ++ X') ++ a' :: w :: c' :: R') s).
    { rewrite <- QR. replace (((L ++ ni_pid id :: W ++ X') ++ a' :: w :: Y ++ r :: R3)) with (L ++ ni_pid id :: W ++ (X' ++ [a']) ++ w :: Y ++ r :: R3).
      - rewrite <- QX. cbn [app]. rewrite <- ?app_assoc in *. exact T.
      - rewrite <- !app_assoc. cbn [app]. rewrite <- !app_assoc. reflexivity. }
    change (l :: X ++ [w]) with ((l :: X) ++ [w]) in DN. rewrite QX, <- app_assoc in DN.
    destruct (tk_x3 _ _ _ _ _ _ _ T2) as (S1 & S2).
    apply valley; [exact S1|exact S2|apply DN; apply adj_split; exists X', []; reflexivity|apply UP; rewrite QY; simpl; auto].
  - intros u v AD. apply DN. exact (adj_snoc (l :: X) w u v AD).
  - intros u v AD. apply UP. apply adj_cons. exact AD.
  - intros _ s' (Z & HZ). exists (W ++ l :: Z ++ r :: R3). rewrite <- !app_assoc in HZ. exact HZ.
Qed.

Lemma fill_advancing_front_tot D fuel id p L R s : Fuel (2 * N + 4) fuel -> TK D (L ++ id :: R) s -> nth_error (ps_points points) id = Some p ->
  gd (fill_advancing_front dbg points fuel p) s (fun _ s' => exists L' R', TK D (L' ++ id :: R') s').
Proof using PP.
  intros F T Hp. unfold fill_advancing_front. apply gd_front. pose proof (tk_C _ _ _ _ T) as C. pose proof (tk_short _ _ _ T) as LV. rewrite app_length in LV. cbn [length] in LV.
  destruct (get_pt points PP (s_front s) C id p L R (proj2 (tk_fo _ _ _ _ T)) Hp (tk_vs _ _ _ _ T)) as (n & E1 & RN).
  eapply gd_lift; [exact E1|]. eapply gd_lift; [reflexivity|]. destruct (ref_pid points _ C _ _ _ _ RN) as (_ & _ & Q1 & Q2). set (nid := get_node_id n) in *.
  apply gd_bind; [grow_go|]. eapply gd_mono; [apply (fill_right_holes_tot D (length R) fuel nid L R s); auto; [eapply Fuel_down; [exact F|lia]|rewrite Q2; exact T]|].
  intros _ s1 (R1 & T1). apply gd_bind; [grow_go|]. pose proof (tk_short _ _ _ T1) as LV1. rewrite app_length in LV1. cbn [length] in LV1.
  destruct (tk_split points D _ s1 L _ R1 T1 eq_refl) as (XL & XR & _).
  eapply gd_mono; [apply (fill_left_holes_tot D (length L) fuel nid L (ni_pid nid :: R1) s1); auto; [eapply Fuel_down; [exact F|lia]|discriminate|]|].
  { intros u [<-|Hu]; [apply xlt_irrefl|]. intro Q. apply (xlt_irrefl (zc u)). eapply xlt_trans; [exact Q|auto]. }
  intros _ s2 (L2 & T2). apply gd_front. pose proof (tk_C _ _ _ _ T2) as C2.
  assert (BA : exists b, basin_angle_satisfy (s_front s2) nid = Done b).
  { unfold basin_angle_satisfy. pose proof (next_id points PP (s_front s2) C2 nid L2 R1 Q1 (tk_vs _ _ _ _ T2)) as NX. destruct R1 as [|x R1].
    - rewrite NX. cbn [rbind]. eauto.
    - destruct NX as (nx & -> & _). cbn [rbind]. destruct (next_node (s_front s2) nx); eauto. }
  destruct BA as (b & E2). eapply gd_lift; [exact E2|]. destruct b; [|apply gd_skip; exists L2, R1; rewrite <- Q2; exact T2].
  eapply gd_mono; [apply (fill_basin_tot D fuel nid L2 R1 s2); auto|]. intros _ s3 (R3 & T3). exists L2, R3. rewrite <- Q2. exact T3.
Qed.

(** no two points of the front on a vertical line *)
Definition sx (vs : list nat) : Prop := forall u w, In u vs -> In w vs -> fst (zc u) = fst (zc w) -> u = w.
Lemma sx_incl vs vs' : sx vs -> incl vs' vs -> sx vs'.
Proof using. intros H I u w Hu Hw. apply H; auto. Qed.
Lemma gd_sub {T} (m : M T) s vs (Q : T -> Sweeper -> Prop) : (forall P, pres (subI P) (subI P) m) -> vs_of s = vs -> gd m s Q ->
  gd m s (fun x s' => Q x s' /\ incl (vs_of s') vs).
Proof using.
  intros PR VS G. assert (I0 : subI (fun v => In v vs) s).
  { unfold subI, FrontSub.FP. rewrite Forall_forall. intros e He. rewrite <- VS. apply (in_map en_pid). exact He. }
  pose proof (gd_wp points _ _ _ _ _ G (PR _ s I0)) as G2. eapply gd_mono; [exact G2|]. intros x s' (H1 & H2). split; auto.
  unfold subI, FrontSub.FP in H2. rewrite Forall_forall in H2. intros v Hv. apply in_map_iff in Hv as (e & <- & He). auto.
Qed.
(** the test of sweeper.rs:113 notices a point straight above another one *)
Definition eps_ok : Prop := forall a b pa pb, nth_error (ps_points points) a = Some pa -> nth_error (ps_points points) b = Some pb -> fst (zc a) = fst (zc b) ->
  f_le (px pa) (f_add (px pb) f_eps) = true.

(** a point event succeeds, and leaves its point on the front *)
Lemma point_event_tot D fuel id p vs s : eps_ok -> Fuel (2 * N + 4) fuel -> TK D vs s -> sx vs -> length D < N -> nth_error (ps_points points) id = Some p -> ~ In id D -> id < ps_head points ->
  (forall e, In e D -> ylt (zc e) (zc id)) ->
  gd (point_event dbg points fuel id p) s (fun _ s' => exists L R, TK (id :: D) (L ++ id :: R) s' /\ sx (L ++ id :: R)).
Proof using PP.
  intros EO F T SX LD Hp ND Lh HY. unfold point_event. apply gd_bind; [intros [nid np] tr; pres_go (Grown_IJ tr)|].
  eapply gd_mono; [apply (insert_point_tot D fuel id p vs s (Fuel_enough _ _ F) T LD Hp ND Lh HY)|].
  intros [nid np] s1 (L & u & w & R & -> & H1 & H2 & T1 & NP). cbn [fst snd] in H1, H2, NP. cbv beta iota.
  assert (FAF : forall L' R' s2, TK (id :: D) (L' ++ id :: R') s2 -> sx (L' ++ id :: R') ->
    gd (fill_advancing_front dbg points fuel p) s2 (fun _ s' => exists L R, TK (id :: D) (L ++ id :: R) s' /\ sx (L ++ id :: R))).
  { intros L' R' s2 T2 SX2. eapply gd_mono; [eapply gd_sub; [intro P; apply fs_faf|apply (tk_vs _ _ _ _ T2)|apply (fill_advancing_front_tot _ fuel id p L' R' s2 F T2 Hp)]|].
    intros _ s' ((L2 & R2 & T3) & IN). exists L2, R2. split; auto. eapply sx_incl; [exact SX2|]. rewrite <- (tk_vs _ _ _ _ T3). exact IN. }
  (* positions relative to the new point *)
  destruct (tk_split points (id :: D) _ s1 (L ++ [u]) id (w :: R) T1) as (XL & XR & NL & NR); [rewrite <- app_assoc; reflexivity|].
  assert (YB : forall v, In v (L ++ u :: w :: R) -> v = ps_tail points \/ ylt (zc v) (zc id)).
  { intros v Hv. assert (In v (vs_of s)) as Hv' by (rewrite (tk_vs _ _ _ _ T); exact Hv). apply in_map_iff in Hv' as (e & <- & He). apply In_nth_error in He as [i He].
    destruct (k_in _ _ _ _ _ _ (tk_K _ _ _ _ T) i e He) as [Q|[Q|Q]]; auto. right. rewrite Q. left. apply (pr_frame points PP id Lh). }
  assert (XR' : forall v, In v (w :: R) -> (fst (zc id) < fst (zc v))%Z).
  { intros v Hv. pose proof (XR v Hv) as X. destruct (YB v) as [->|Y]; [apply in_or_app; right; right; exact Hv|apply (pr_frame points PP id Lh)|].
    unfold xlt in X. unfold ylt in Y. lia. }
  assert (XU : xlt (zc u) (zc id)) by (apply XL; apply in_or_app; simpl; auto).
  assert (XL0 : forall v, In v L -> (fst (zc v) < fst (zc u))%Z).
  { intros v Hv. destruct (tk_split points D _ s L u (w :: R) T eq_refl) as (Y1 & _ & Y2 & _). pose proof (Y1 v Hv) as X. unfold xlt in X.
    destruct X as [X|[X _]]; auto. exfalso. apply Y2. rewrite <- (SX v u); auto; apply in_or_app; simpl; auto. }
  assert (SX1 : forall l, incl l (L ++ u :: w :: R) -> (forall v, In v l -> fst (zc v) <> fst (zc id)) -> forall l', incl l' (id :: l) -> sx l').
  { intros l Hl Hn l' Hl' a b Ha Hb Q. destruct (Hl' a Ha) as [<-|Ia], (Hl' b Hb) as [<-|Ib]; auto; exfalso; [apply (Hn b Ib)|apply (Hn a Ia)]; congruence. }
  apply gd_bind; [grow_go|].
  destruct (f_le (px p) _) eqn:FE.
  - apply gd_bind; [grow_go|]. destruct (app_cases L) as [->|(L' & t & ->)].
    + eapply gd_mono; [apply (fill_one_head (id :: D) fuel nid (id :: w :: R) s1); [rewrite H2; exact T1|auto]|]. intros r s2 (_ & ->). apply gd_skip.
      apply (FAF [u] (w :: R) s1); auto. apply (SX1 ([] ++ u :: w :: R)); [apply incl_refl| |].
      * intros v [<-|Hv] Q; [|specialize (XR' v Hv); lia].
        assert (Hu : u = ps_head points). { destruct (ch_first _ _ (tk_C _ _ _ _ T)) as (e0 & N0 & E0). pose proof (tk_vs _ _ _ _ T) as V. unfold vs_of in V.
          apply (map_nth_error en_pid) in N0. rewrite V in N0. cbn in N0. injection N0 as ->. exact E0. }
        destruct (pr_frame points PP id Lh) as ((Q1 & _) & _). rewrite <- Hu in Q1. lia.
      * intros v [<-|[<-|Hv]]; simpl; auto.
    + rewrite <- app_assoc in T1.
      eapply gd_mono; [apply (fill_one_tot (id :: D) fuel nid L' t id (w :: R) s1 (Fuel_enough _ _ F)); [rewrite H2; exact T1|auto|]|].
      { intro TM. rewrite H2. pose proof (tm_eps _ _ TM _ _ _ _ Hp NP FE) as XE. assert (XT : (fst (zc t) < fst (zc u))%Z) by (apply XL0; apply in_or_app; simpl; auto).
        assert (XQ : fst (zc u) = fst (zc id)) by (unfold xlt in XU; lia). assert (YQ : (snd (zc u) < snd (zc id))%Z) by (unfold xlt in XU; lia).
        assert (P1 : (0 < (fst (zc u) - fst (zc t)) * (snd (zc id) - snd (zc u)))%Z) by (apply Z.mul_pos_pos; lia).
        assert (Q : orient (zc t) (zc u) (zc id) = ((fst (zc u) - fst (zc t)) * (snd (zc id) - snd (zc u)) - (snd (zc u) - snd (zc t)) * (fst (zc id) - fst (zc u)))%Z) by (generalize (zc t) (zc u) (zc id); intros; zpts; ring).
        rewrite Q, XQ in *. replace (fst (zc id) - fst (zc id))%Z with 0%Z in * by lia. lia. }
      intros r s2 (fo & _ & _ & _ & _ & _ & T2 & _). apply gd_skip. apply (FAF (L' ++ [t]) (w :: R) s2).
      { rewrite <- app_assoc. exact T2. }
      apply (SX1 ((L' ++ [t]) ++ w :: R)).
      * intros v Hv. rewrite in_app_iff in *. simpl. tauto.
      * intros v Hv Q. apply in_app_or in Hv as [Hv|Hv]; [|specialize (XR' v Hv); lia]. specialize (XL0 v Hv). unfold xlt in XU. lia.
      * intros v Hv. apply in_app_or in Hv as [Hv|[<-|Hv]]; [right; apply in_or_app; auto|left; auto|right; apply in_or_app; auto].
  - apply gd_skip. apply (FAF (L ++ [u]) (w :: R) s1); [rewrite <- app_assoc; exact T1|].
    apply (SX1 (L ++ u :: w :: R)); [apply incl_refl| |].
    + intros v Hv Q. apply in_app_or in Hv as [Hv|[<-|Hv]].
      * specialize (XL0 v Hv). unfold xlt in XU. lia.
      * rewrite (EO id u p np Hp NP (eq_sym Q)) in FE. discriminate.
      * specialize (XR' v Hv). lia.
    + intros v Hv. rewrite <- app_assoc in Hv. apply in_app_or in Hv as [Hv|[<-|[<-|Hv]]]; simpl; [right| right|left|right]; auto; apply in_or_app; simpl; auto.
Qed.
End S.
