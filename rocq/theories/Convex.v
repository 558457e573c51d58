(** * Convex: the next callback when the convex case is taken *)
From Coq Require Import List Arith Bool Lia ZArith.
From Verif Require Import Base Num Shape ShapeSpec Utils Points Triangles Front Sweeper Cdt Lists Monad Traverse TraceSpec Grow Exact
  FrontSpec Geom Mesh Rotate Setup Legal Legalize Boundary Chain Remap Attach FrontInv Disc Good Marks Flips LegalTotal Cone Planar Corridor Frames Insert Fills FanAll Total FrontSub FillTotal EdgeFill NoCross CorTotal InsertTotal EdgeTotal.
Import ListNotations.

Lemma last_def {T} (x : T) X d d' : last (x :: X) d = last (x :: X) d'.
Proof. revert x. induction X as [|y X IH]; intro x; auto. change (last (y :: X) d = last (y :: X) d'). apply IH. Qed.

Section S.
Context {A : Arith} {E : Exact A}.
Variable dbg : bool.
Variable points : Points.
Hypothesis PP : proper points.
Notation N := (npts points).
Notation zc := (zc points).
Notation Kst := (Kst points).
Notation J := (J points).
Notation Good := (Good points).
Notation nid_ok := (nid_ok points).
Notation TK := (TK points).
Notation enough := (enough points).
Notation Fuel := (Fuel points).
Notation sx := (sx points).

(** the next callback announces a triangle that is not counter-clockwise *)
Definition nb {T} (m : M T) (s : Sweeper) : Prop :=
  exists l cb, s_trace (snd (m s)) = l ++ cb :: s_trace s /\ ~ good_cb points cb.
Lemma nb_bind {T U} (m : M T) (k : T -> M U) s : (forall x, grows (k x)) -> nb m s -> nb (bind m k) s.
Proof using.
  intros G (l & cb & H1 & H2). unfold nb, bind. destruct (m s) as [[x|p|u|] s']; cbn [snd] in *; [|exists l, cb; auto..].
  pose proof (G x (s_trace s') s' (ex_intro _ [] eq_refl)) as K. unfold wp in K.
  assert (K' : Grown (s_trace s') (snd (k x s'))) by (destruct (k x s') as [[] s2]; exact K).
  destruct K' as [l' ->]. exists (l' ++ l), cb. rewrite H1, app_assoc. auto.
Qed.
Lemma nb_lift {T U} (r : res T) (k : T -> M U) s x : r = Done x -> nb (k x) s -> nb (bind (lift r) k) s.
Proof using. intros -> H. exact H. Qed.
Lemma nb_front {U} (k : AdvancingFront -> M U) s : nb (k (s_front s)) s -> nb (bind get_front k) s.
Proof using. auto. Qed.
Lemma nb_tris {U} (k : TriangleStore -> M U) s : nb (k (s_tris s)) s -> nb (bind get_tris k) s.
Proof using. auto. Qed.
Lemma nb_put_tris {U} ts (k : unit -> M U) s : nb (k tt) (mkSw ts (s_front s) (s_result s) (s_trace s)) -> nb (bind (put_tris ts) k) s.
Proof using. auto. Qed.
Lemma nb_put_front {U} af (k : unit -> M U) s : nb (k tt) (mkSw (s_tris s) af (s_result s) (s_trace s)) -> nb (bind (put_front af) k) s.
Proof using. auto. Qed.
(** a step that adds no callback *)
Lemma nb_quiet {T U} (m : M T) (k : T -> M U) s : wp m s (fun _ _ => False) (fun x s' => s_trace s' = s_trace s /\ nb (k x) s') -> nb (bind m k) s.
Proof using.
  intro H. unfold nb, bind. unfold wp in H. destruct (m s) as [[x|p|u|] s']; try contradiction. destruct H as (H1 & l & cb & H2 & H3). exists l, cb. rewrite <- H1. auto.
Qed.
Lemma nb_legalize fuel a s : S a = length (s_tris s) -> ~ tccw zc (s_tris s) a -> nb (legalize dbg points fuel (Some a)) s.
Proof using.
  intros L NC. unfold legalize, nb. unfold bind at 1, emit at 1. set (s0 := mkSw _ _ _ _). set (m := bind _ _).
  assert (GM : grows m) by (intro tr; apply (grow_rest dbg points), Grown_X).
  pose proof (GM (s_trace s0) s0 (ex_intro _ [] eq_refl)) as K. unfold wp in K.
  assert (K' : Grown (s_trace s0) (snd (m s0))) by (destruct (m s0) as [[] s2]; exact K).
  destruct K' as [l H]. eexists l, _. split; [exact H|]. unfold good_cb. cbn [cb_event cb_tris]. intro G. apply NC, G, L.
Qed.

Lemma fill_one_nb D fuel id L a c R s : TK D (L ++ a :: ni_pid id :: c :: R) s -> nid_ok id ->
  (orient (zc a) (zc (ni_pid id)) (zc c) <= 0)%Z -> nb (fill_one dbg points fuel id) s.
Proof using PP.
  intros T Hid NCC. set (b := ni_pid id) in *. pose proof (tk_K _ _ _ _ T) as K. pose proof (tk_C _ _ _ _ T) as C.
  pose proof (tk_vs _ _ _ _ T) as VS. unfold vs_of in VS.
  unfold fill_one. set (ts := s_tris s) in *. set (ns := nodes (s_front s)) in *.
  apply nb_front.
  assert (VS' : map en_pid ns = (L ++ [a]) ++ b :: c :: R) by (rewrite VS, <- app_assoc; auto).
  destruct (get_id points PP (s_front s) C id (L ++ [a]) (c :: R) Hid VS') as (node & E1 & RN). fold b in RN.
  eapply nb_lift; [exact E1|]. eapply nb_lift; [reflexivity|].
  destruct (ref_prev (s_front s) _ _ _ _ RN L a eq_refl) as (prev & E2 & RP). eapply nb_lift; [exact E2|]. cbv beta iota.
  destruct (ref_next (s_front s) _ _ _ _ RN) as (next & E3 & RX). rewrite E3. cbv zeta.
  apply nb_tris. fold ts. cbn [ts_insert].
  destruct (ref_pid points _ C _ _ _ _ RP) as (Pp & _ & Np & Np'). destruct (ref_pid points _ C _ _ _ _ RX) as (Px & _ & Nx & Nx').
  destruct (ref_pid points _ C _ _ _ _ RN) as (Pn & _ & _).
  destruct RN as (_ & In_ & (en & Gn & Qn)). destruct RP as (_ & Ip & (ep & Gp & Qp)). destruct RX as (_ & Ix & (ex & Gx & Qx)).
  fold ns in Gn, Gp, Gx. rewrite app_length in In_. rewrite !app_length in Ix. cbn [length] in In_, Ix. rewrite In_ in Gn. rewrite Ix in Gx. rewrite Ip in Gp.
  set (k := length L) in *. replace (k + 1) with (S k) in * by lia. replace (S k + 1) with (S (S k)) in * by lia.
  assert (Pep : en_pid ep = a) by (rewrite Qp in Pp; exact Pp). assert (Pen : en_pid en = b) by (rewrite Qn in Pn; exact Pn). assert (Pex : en_pid ex = c) by (rewrite Qx in Px; exact Px).
  pose proof K as [M DF DB B FO W AG DI]. fold ns in B, W, C. fold ts in M, DF, DB, B, AG, DI.
  destruct (front_pos points ts ns B k ep en Gp Gn) as (P1 & B1 & F1 & T1).
  destruct (front_pos points ts ns B (S k) en ex Gn Gx) as (P2 & B2 & F2 & T2).
  assert (Tp : nr_tri prev = Some (fst P1)) by (rewrite Qp; exact T1). assert (Tn : nr_tri node = Some (fst P2)) by (rewrite Qn; exact T2).
  rewrite Tp, Tn, Pp, Pn, Px. eapply nb_lift; [reflexivity|].
  set (t1 := ts ++ [tri_new a b c]).
  assert (FOp : forall X Y, In (X, Y) (fill_links ts P1 P2) -> opposed (ts ++ [tri_new (en_pid ep) (en_pid en) (en_pid ex)]) (fst X) (snd X) (fst Y) (snd Y) /\
    ((fst X = length ts /\ bpos ts Y) \/ (bpos ts X /\ fst Y = length ts))) by apply (fill_opp ts ep en ex P1 P2 B1 F1 B2 F2).
  rewrite Pep, Pen, Pex in FOp. fold t1 in FOp.
  assert (Lt1 : length t1 = S (length ts)) by (unfold t1; rewrite app_length; simpl; lia).
  assert (LP1 : fst P1 < length ts) by apply B1. assert (LP2 : fst P2 < length ts) by apply B2.
  assert (G0 : length ts < S (length ts)) by auto.
  assert (G1 : forall c, c < S (length ts) -> c < length t1) by (intros c0 Lc; rewrite Lt1; exact Lc).
  assert (G2 : forall c, c < length ts -> c < S (length ts)) by (intros; lia).
  assert (NE : a <> b /\ b <> c /\ a <> c).
  { rewrite <- Pep, <- Pen, <- Pex. repeat split; intro Q.
    - assert (X := ch_nodup points _ C _ _ _ _ Gp Gn Q). lia.
    - assert (X := ch_nodup points _ C _ _ _ _ Gn Gx Q). lia.
    - assert (X := ch_nodup points _ C _ _ _ _ Gp Gx Q). lia. }
  assert (DN : distinct (tri_new a b c)) by (apply distinct_iff; cbn; tauto).
  assert (DT : forall c, c < S (length ts) -> distinct (tri_at t1 c)).
  { intros c0 Lc. destruct (Nat.eq_dec c0 (length ts)) as [->|Ne0]; unfold t1.
    - rewrite t1_new. exact DN.
    - rewrite t1_old by lia. apply (mesh_dist M). lia. }
  destruct (FOp _ _ (or_introl eq_refl)) as [O1 _]. destruct (FOp _ _ (or_intror (or_introl eq_refl))) as [O2 _]. cbn [fst snd] in O1, O2.
  destruct (mark_done dbg t1 (length ts) I2 (fst P1) (snd P1) (G1 _ G0) (G1 _ (G2 _ LP1)) ltac:(lia) (DT _ G0) (DT _ (G2 _ LP1)) O1) as [ts1 H1].
  eapply nb_lift; [exact H1|]. eapply nb_lift; [reflexivity|]. destruct (mark_tv dbg _ _ _ _ H1) as [L1 V1].
  assert (G3 : forall c, c < S (length ts) -> c < length ts1) by (intros c0 Lc; rewrite L1; apply (G1 c0 Lc)).
  assert (DT1 : forall c, c < S (length ts) -> distinct (tri_at ts1 c)).
  { intros c0 Lc. specialize (DT c0 Lc). rewrite distinct_iff in *. pose proof (V1 c0 I0) as X0. pose proof (V1 c0 I1) as X1. pose proof (V1 c0 I2) as X2. unfold tv in X0, X1, X2. rewrite X0, X1, X2. exact DT. }
  assert (O2' : opposed ts1 (length ts) I0 (fst P2) (snd P2)) by (unfold opposed in *; rewrite !V1; exact O2).
  destruct (mark_done dbg ts1 (length ts) I0 (fst P2) (snd P2) (G3 _ G0) (G3 _ (G2 _ LP2)) ltac:(lia) (DT1 _ G0) (DT1 _ (G2 _ LP2)) O2') as [ts2 H2].
  eapply nb_lift; [exact H2|]. destruct (mark_tv dbg _ _ _ _ H2) as [L2 V2].
  assert (LN : length ts2 = S (length ts)) by (rewrite L2, L1; exact Lt1).
  apply nb_put_tris. cbn [s_tris s_front s_result s_trace].
  assert (LX := nth_error_lt _ _ _ Gx).
  assert (Eaf : update_and_delete_by_index dbg (s_front s) (nr_index prev) a (Some (length ts)) (nr_index node) = Done (mkFront (fill_nodes ts ns k ep) None)).
  { unfold update_and_delete_by_index. fold ns. rewrite Ip, In_, Gp. cbn [tid_invalid negb rassert unwrap]. 
    assert (X : (if dbg then Done tt else Done tt) = Done tt) by (destruct dbg; auto). rewrite X. cbn [rbind]. rewrite Pep, Nat.eqb_refl. cbn [rassert]. rewrite X. cbn [rbind].
    rewrite list_set_length, (proj2 (Nat.ltb_lt _ _)) by lia. reflexivity. }
  eapply nb_lift; [exact Eaf|]. apply nb_put_front. cbn [s_tris s_front s_result s_trace].
  assert (VN : tv ts2 (length ts) I0 = a /\ tv ts2 (length ts) I1 = b /\ tv ts2 (length ts) I2 = c).
  { rewrite !V2, !V1. unfold tv, t1. rewrite t1_new. auto. }
  apply nb_bind; [intros x tr; apply (pres_ret _ _ (Grown_IJ tr))|].
  apply nb_legalize; cbn [s_tris]; auto. unfold tccw, ccw3. destruct VN as (-> & -> & ->). lia.
Qed.

Lemma q_fill_one tr fuel id : pres (Grown tr) (Grown tr) (fill_one dbg points fuel id). Proof using. apply gr_fill_one. Qed.
Hint Resolve q_fill_one : pres.
Hint Resolve EdgeFill.q_right_concave EdgeFill.q_right_convex EdgeFill.q_right_below EdgeFill.q_right_above : pres.
Ltac grow_go := let x := fresh "x" in let tr := fresh "tr" in intros x tr; pres_go (Grown_IJ tr).

Section Right.
Variables (q p : nat) (pq pp : Point) (edge : ConstrainedEdge).
Hypothesis Hq : nth_error (ps_points points) q = Some pq.
Hypothesis Hp : nth_error (ps_points points) p = Some pp.
Hypothesis Eq : ce_q edge = pq.
Hypothesis Ep : ce_p edge = pp.
Hypothesis Ei : p_id edge = p.
Hypothesis Lp : p < ps_head points.
Hypothesis QP : (fst (zc q) < fst (zc p))%Z.
Variable D : list nat.
Hypothesis HD : In p D.
Notation h v := (ht (zc q) (zc p) (zc v)).
Lemma not_last L v s : TK D (L ++ [v]) s -> (fst (zc v) < fst (zc p))%Z -> False.
Proof. intros T X. apply tk_last in T. subst v. destruct (pr_frame points PP p Lp) as (F1 & _). lia. Qed.
Lemma below_test w pw : nth_error (ps_points points) w = Some pw -> w <> q -> w <> p ->
  exists o, orient_2d dbg (ce_q edge) pw (ce_p edge) = Done o /\ (is_ccw o = true <-> (h w < 0)%Z).
Proof.
  intros Hw N1 N2. assert (q <> p) by (intros ->; lia). rewrite Eq, Ep. destruct (orient_ccw dbg points PP q w p pq pw pp Hq Hw Hp) as (o & H1 & H2 & _); auto. exists o. split; auto.
  rewrite H2. unfold ht. assert (Q : orient (zc q) (zc w) (zc p) = (- orient (zc q) (zc p) (zc w))%Z) by (zpts; ring). rewrite Q. lia.
Qed.

Lemma right_concave_nb fuel id L v w R s : fuel <> 0 -> TK D (L ++ ni_pid id :: v :: w :: R) s -> nid_ok id ->
  (orient (zc (ni_pid id)) (zc v) (zc w) <= 0)%Z -> nb (fill_right_concave_edge_event dbg points fuel edge id) s.
Proof using PP.
  intros F T Hid CX. destruct fuel as [|f]; [congruence|]. cbn [fill_right_concave_edge_event]. apply nb_front.
  pose proof (tk_C _ _ _ _ T) as C. destruct (next_id points PP (s_front s) C id L _ Hid (tk_vs _ _ _ _ T)) as (next & E1 & RX).
  eapply nb_lift; [exact E1|]. eapply nb_lift; [reflexivity|]. cbv zeta. destruct (ref_pid points _ C _ _ _ _ RX) as (_ & _ & Q1 & Q2).
  apply nb_bind; [grow_go|]. apply (fill_one_nb D f (get_node_id next) L (ni_pid id) w R s); rewrite ?Q2; auto.
Qed.

Lemma right_convex_nb : forall k fuel id L v w R s, length R <= k -> S (S k) <= fuel -> TK D (L ++ ni_pid id :: v :: w :: R) s -> sx (L ++ ni_pid id :: v :: w :: R) -> nid_ok id ->
  In q (L ++ [ni_pid id]) -> (fst (zc v) < fst (zc p))%Z -> (h v < 0)%Z -> (h v < h (ni_pid id))%Z -> (orient (zc (ni_pid id)) (zc v) (zc w) <= 0)%Z ->
  nb (fill_right_convex_edge_event dbg points fuel edge id) s.
Proof.
  induction k as [|k IH]; intros fuel id L v w R s Lk F T SX Hid IQ XV HV HD' CX; (destruct fuel as [|f]; [lia|]); cbn [fill_right_convex_edge_event]; apply nb_front;
    pose proof (tk_C _ _ _ _ T) as C; destruct (next_id points PP (s_front s) C id L _ Hid (tk_vs _ _ _ _ T)) as (next & E1 & RX);
    (eapply nb_lift; [exact E1|]); (eapply nb_lift; [reflexivity|]); destruct (ref_next _ _ _ _ _ RX) as (nn & E2 & RN); rewrite E2; (eapply nb_lift; [reflexivity|]);
    (assert (T1 : TK D ((L ++ [ni_pid id]) ++ v :: w :: R) s) by (rewrite <- app_assoc; exact T));
    (assert (S1 : sx ((L ++ [ni_pid id]) ++ v :: w :: R)) by (rewrite <- app_assoc; exact SX));
    (assert (X1 : (fst (zc (ni_pid id)) < fst (zc v))%Z) by (apply (sx_lt points D _ s _ _ T SX); [rewrite in_app_iff; simpl; tauto|rewrite in_app_iff; simpl; tauto|apply (tk_split points D _ s L _ _ T eq_refl); simpl; auto]));
    (assert (X2 : (fst (zc v) < fst (zc w))%Z) by (apply (sx_lt points D _ s _ _ T SX); [rewrite in_app_iff; simpl; tauto|rewrite in_app_iff; simpl; tauto|apply (tk_split points D _ s _ _ _ T1 eq_refl); simpl; auto]));
    pose proof (ht_down (zc q) (zc p) QP _ _ _ X1 X2 CX HD') as HW;
    (assert (Wp : w <> p) by (intro Z0; assert (Z1 : h p = 0%Z) by (unfold ht; zpts; ring); rewrite Z0 in HW; lia));
    (assert (Wq : w <> q) by (eapply ne_after; [exact T|exact IQ|simpl; auto]));
    (assert (XW : (fst (zc w) < fst (zc p))%Z) by (destruct (next_right points D (L ++ [ni_pid id]) v w R s q p T1 S1 HD Wp QP XV HV); [auto|lia]));
    (assert (T2 : TK D ((L ++ [ni_pid id; v]) ++ w :: R) s) by (rewrite <- app_assoc; exact T));
    (destruct R as [|x R]; [exfalso; eapply not_last; [exact T2|exact XW]|]); cbn [length] in Lk; [lia|].
  destruct (ref_next _ _ _ _ _ RN) as (nnn & E3 & RNN). rewrite E3.
  destruct (ref_pid points _ C _ _ _ _ RX) as (_ & Hv & Q1 & Q2). destruct (ref_pid points _ C _ _ _ _ RN) as (_ & Hw & _). destruct (ref_pid points _ C _ _ _ _ RNN) as (_ & Hx & _).
  destruct (tk_split points D _ s _ _ _ T1 eq_refl) as (_ & _ & _ & Y2). destruct (tk_split points D _ s _ _ _ T2 eq_refl) as (_ & _ & _ & Y3).
  destruct (orient_ccw dbg points PP v w x _ _ _ Hv Hw Hx) as (o2 & E4 & B4 & _); [intro Z0; apply Y2; rewrite Z0; simpl; auto|intro Z0; apply Y3; rewrite Z0; simpl; auto|intro Z0; apply Y2; rewrite Z0; simpl; auto|].
  eapply nb_lift; [exact E4|]. destruct (is_ccw o2).
  - apply nb_bind; [grow_go|]. apply (right_concave_nb f id L v w (x :: R) s); auto. lia.
  - destruct (below_test w _ Hw Wq Wp) as (o & E5 & B5). eapply nb_lift; [exact E5|]. rewrite (proj2 B5 ltac:(lia)).
    assert (B6 : (orient (zc v) (zc w) (zc x) <= 0)%Z) by (destruct (Z_lt_le_dec 0 (orient (zc v) (zc w) (zc x))) as [Z0|Z0]; auto; apply B4 in Z0; discriminate).
    apply (IH f (get_node_id next) (L ++ [ni_pid id]) w x R s); rewrite ?Q2; auto; try lia.
    apply in_or_app. auto.
Qed.

Lemma right_below_nb : forall k fuel id L v w R s, length R <= k -> 3 + k <= fuel -> TK D (L ++ ni_pid id :: v :: w :: R) s -> sx (L ++ ni_pid id :: v :: w :: R) -> nid_ok id ->
  In q (L ++ [ni_pid id]) -> (fst (zc (ni_pid id)) < fst (zc p))%Z -> (0 <= h (ni_pid id))%Z -> (fst (zc v) < fst (zc p))%Z -> (h v < 0)%Z -> (orient (zc (ni_pid id)) (zc v) (zc w) <= 0)%Z ->
  nb (fill_right_below_edge_event dbg points fuel edge id) s.
Proof.
  intros k fuel id L v w R s Lk F T SX Hid IQ XI HI XV HV CX. destruct fuel as [|f]; [lia|]. cbn [fill_right_below_edge_event].
  rewrite Ep. unfold nid_ok in Hid. rewrite (le_pt points PP p (ni_pid id) pp (ni_point id) Hp Hid). destruct (Z.leb_spec (fst (zc p)) (fst (zc (ni_pid id)))); [lia|].
  apply nb_front. pose proof (tk_C _ _ _ _ T) as C. destruct (get_id points PP (s_front s) C id L _ Hid (tk_vs _ _ _ _ T)) as (node & E0 & R0).
  eapply nb_lift; [exact E0|]. eapply nb_lift; [reflexivity|]. destruct (ref_next _ _ _ _ _ R0) as (next & E1 & RX). rewrite E1. eapply nb_lift; [reflexivity|].
  assert (T1 : TK D ((L ++ [ni_pid id]) ++ v :: w :: R) s) by (rewrite <- app_assoc; exact T).
  destruct (ref_next _ _ _ _ _ RX) as (nn & E2 & RN). rewrite E2. eapply nb_lift; [reflexivity|].
  destruct (ref_pid points _ C _ _ _ _ R0) as (_ & Hi & _). destruct (ref_pid points _ C _ _ _ _ RX) as (_ & Hv & _). destruct (ref_pid points _ C _ _ _ _ RN) as (_ & Hw & _).
  destruct (tk_split points D _ s _ _ _ T eq_refl) as (_ & _ & _ & Y2). destruct (tk_split points D _ s _ _ _ T1 eq_refl) as (_ & _ & _ & Y3).
  destruct (orient_ccw dbg points PP (ni_pid id) v w _ _ _ Hi Hv Hw) as (o2 & E4 & B4 & _); [intro Z0; apply Y2; rewrite Z0; simpl; auto|intro Z0; apply Y3; rewrite Z0; simpl; auto|intro Z0; apply Y2; rewrite Z0; simpl; auto|].
  eapply nb_lift; [exact E4|]. destruct (is_ccw o2) eqn:IC; [pose proof (proj1 B4 eq_refl); lia|].
  apply nb_bind; [grow_go|]. apply (right_convex_nb k f id L v w R s); auto; lia.
Qed.

Lemma right_above_nb : forall X fuel id L v w R s, 4 + length X + length R <= fuel -> TK D (L ++ (ni_pid id :: X) ++ v :: w :: R) s -> sx (L ++ (ni_pid id :: X) ++ v :: w :: R) -> nid_ok id ->
  In q (L ++ [ni_pid id]) -> Forall (fun x => (0 <= h x)%Z) (ni_pid id :: X) -> (fst (zc v) < fst (zc p))%Z -> (h v < 0)%Z -> (orient (zc (last X (ni_pid id))) (zc v) (zc w) <= 0)%Z ->
  nb (fill_right_above_edge_event dbg points fuel edge id) s.
Proof.
  induction X as [|a X IH]; intros fuel id L v w R s F T SX Hid IQ HX XV HV CX; (destruct fuel as [|f]; [lia|]); cbn [fill_right_above_edge_event app length last] in *; apply nb_front;
    pose proof (tk_C _ _ _ _ T) as C; destruct (next_id points PP (s_front s) C id L _ Hid (tk_vs _ _ _ _ T)) as (next & E1 & RX); (eapply nb_lift; [exact E1|]);
    destruct (ref_pid points _ C _ _ _ _ RX) as (_ & Hw & Q1 & Q2); rewrite Ep; rewrite (le_pt points PP p _ pp (nr_point next) Hp Hw); rewrite <- Ep;
    pose proof (Forall_inv HX) as H0; pose proof (Forall_inv_tail HX) as HX';
    (assert (XI : (fst (zc (ni_pid id)) < fst (zc v))%Z) by (apply (sx_lt points D _ s _ _ T SX); [rewrite in_app_iff; simpl; tauto|rewrite in_app_iff; simpl; rewrite ?in_app_iff; simpl; tauto|apply (tk_split points D _ s L _ _ T eq_refl); simpl; rewrite ?in_app_iff; simpl; auto])).
  - rewrite (proj2 (Z.leb_gt _ _)) by lia.
    assert (Vp : v <> p) by (intro Z0; rewrite Z0 in XV; lia). assert (Vq : v <> q) by (eapply ne_after; [exact T|exact IQ|simpl; auto]).
    destruct (below_test v _ Hw Vq Vp) as (o & E5 & B5). eapply nb_lift; [exact E5|].
    rewrite (proj2 B5 HV). apply nb_bind; [grow_go|]. apply (right_below_nb (length R) f id L v w R s); auto; lia.
  - assert (T1 : TK D ((L ++ [ni_pid id]) ++ (a :: X) ++ v :: w :: R) s) by (rewrite <- app_assoc; exact T).
    assert (S1 : sx ((L ++ [ni_pid id]) ++ (a :: X) ++ v :: w :: R)) by (rewrite <- app_assoc; exact SX).
    assert (XA : (fst (zc a) < fst (zc v))%Z).
    { apply (sx_lt points D _ s _ _ T SX); [rewrite in_app_iff; simpl; tauto|rewrite in_app_iff; simpl; rewrite ?in_app_iff; simpl; tauto|].
      apply (tk_split points D _ s (L ++ [ni_pid id]) _ _ T1 eq_refl). rewrite in_app_iff; simpl; auto. }
    rewrite (proj2 (Z.leb_gt _ _)) by lia.
    assert (Ap : a <> p) by (intro Z0; rewrite Z0 in XA; lia). assert (Aq : a <> q) by (eapply ne_after; [exact T|exact IQ|simpl; auto]).
    destruct (below_test a _ Hw Aq Ap) as (o & E5 & B5). eapply nb_lift; [exact E5|].
    assert (HA : (0 <= h a)%Z) by (inversion HX'; auto).
    destruct (is_ccw o) eqn:IC; [pose proof (proj1 B5 eq_refl); lia|].
    apply (IH f (get_node_id next) (L ++ [ni_pid id]) v w R s); rewrite ?Q2; auto; [lia|apply in_or_app; auto|].
    destruct X as [|x X]; auto. rewrite (last_def x X _ (ni_pid id)). exact CX.
Qed.
End Right.
End S.
