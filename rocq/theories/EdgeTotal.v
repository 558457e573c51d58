(** * EdgeTotal: the event for an edge succeeds *)
From Coq Require Import List Arith Bool Lia ZArith.
From Verif Require Import Base Num Shape ShapeSpec Utils Points Triangles Front Sweeper Cdt Lists Monad Traverse TraceSpec Grow Exact
  FrontSpec Geom Mesh Rotate Setup Legal Legalize Boundary Chain Remap Attach FrontInv Disc Good Marks Flips LegalTotal Cone Planar Corridor Frames Insert Fills FanAll Total FrontSub FillTotal EdgeFill NoCross CorTotal InsertTotal.
Import ListNotations.

Section S.
Context {A : Arith} {E : Exact A}.
Variable dbg : bool.
Variable points : Points.
Hypothesis PP : proper points.
Notation N := (npts points).
Notation zc := (zc points).
Notation Kst := (Kst points).
Notation J := (J points).
Notation Good := (Good points).
Notation nid_ok := (nid_ok points).
Context {Ed : nat -> nat -> Prop}.
Notation gd := (gd (Ed:=Ed) points).
Notation TK := (TK points).
Notation enough := (enough points).
Notation Fuel := (Fuel points).
Notation sx := (sx points).
Notation clear := (clear points).
Notation frame := (frame points).
Notation EP := (EP points).
Notation FI := (FI points).
Notation BB := (BB points).
Notation never := (fun (_ : failure) (_ : Sweeper) => False).
Notation All := (fun _ : nat => True).

(** ** looking for the first triangle at the upper end that the edge enters *)
Definition yltb (a b : zpt) : bool := ((snd a <? snd b) || ((snd a =? snd b) && (fst a <? fst b)))%Z.
Lemma yltb_iff a b : yltb a b = true <-> ylt a b.
Proof using. unfold yltb, ylt. rewrite orb_true_iff, andb_true_iff, !Z.ltb_lt, Z.eqb_eq. tauto. Qed.
(** the points that are passed only after x *)
Definition mu (q x : nat) : nat := cnt (fun v => yltb (zc v) (zc q) && (0 <? orient (zc q) (zc v) (zc x))%Z) N.
Lemma mu_lt q p1 p2 : nocol points -> q < N -> p1 < N -> p2 < N -> ylt (zc p1) (zc q) -> ylt (zc p2) (zc q) -> (0 < orient (zc q) (zc p1) (zc p2))%Z -> mu q p1 < mu q p2.
Proof using.
  intros NC Lq L1 L2 Y1 Y2 O. apply (cnt_lt _ _ N p1); auto.
  - intros v Lv H. apply andb_true_iff in H as [H1 H2]. apply andb_true_iff. split; auto. apply yltb_iff in H1. apply Z.ltb_lt in H2. apply Z.ltb_lt.
    destruct (Z_lt_le_dec 0 (orient (zc q) (zc v) (zc p2))) as [|G]; auto. exfalso.
    assert (NZ : orient (zc q) (zc v) (zc p2) <> 0%Z).
    { apply NC; auto; intros Q; [subst v|subst v|subst q].
      - unfold ylt in H1. lia.
      - rewrite orient_swap' in H2. lia.
      - unfold ylt in Y2. lia. }
    apply (high_cone (zc q) (zc v) (zc p1) (zc p2)); auto. lia.
  - rewrite (proj2 (proj2 (orient_diag _ _))). apply andb_false_r.
  - apply andb_true_iff. split; [apply yltb_iff; auto|apply Z.ltb_lt; auto].
Qed.

Section Walk.
Hypothesis NC : nocol points.
Hypothesis SX : scan_exact points.
Variables (D : list nat) (n : nat) (ns : list Entry) (ep eq : nat) (ce : ConstrainedEdge) (s : Sweeper).
Notation ts := (s_tris s).
Hypothesis K : EP D n ns [] s.
Hypothesis F : frame None All ep eq (q_id ce) ts.
Hypothesis HCR : CR zc All ep eq ts.
Hypothesis LFT : forall t i, t < length ts -> tv ts t i = eq -> tn ts t (prv i) = None -> (0 <= orient (zc eq) (zc (tv ts t (nxt i))) (zc ep))%Z.
Lemma walk_tot : forall k fuel t i, t < length ts -> tv ts t i = eq -> (tv ts t (prv i) = ep \/ (orient (zc eq) (zc (tv ts t (prv i))) (zc ep) < 0)%Z) ->
  mu eq (tv ts t (prv i)) <= k -> BB n (n + 1) + 3 * N + 3 + k <= fuel ->
  wp (edge_event_process dbg points fuel ep eq ce (Some t) eq []) s never (fun _ _ => True).
Proof using PP NC SX K F HCR LFT.
  pose proof (EP_PL points NC _ _ _ _ _ K) as HP. pose proof (pl_mesh _ _ HP) as M. pose proof F as (NE & HSL & _ & TF).
  pose proof (vertex_lt points _ ep HP (frame_vertex _ _ _ _ _ _ _ F)) as Lep.
  induction k as [|k IH]; intros fuel t i Lt Ei P2 MU FU.
  all: assert (Dt : distinct (tri_at ts t)) by apply (mesh_dist M Lt).
  all: pose proof (m_range M t i Lt) as Leq; rewrite Ei in Leq; pose proof (m_range M t (nxt i) Lt) as L1; pose proof (m_range M t (prv i) Lt) as L2.
  all: assert (X1 : tv ts t (nxt i) <> eq) by (rewrite <- Ei; intro Q; apply Dt in Q; destruct i; discriminate).
  all: assert (X2 : tv ts t (prv i) <> eq) by (rewrite <- Ei; intro Q; apply Dt in Q; destruct i; discriminate).
  all: assert (O : (0 < orient (zc eq) (zc (tv ts t (nxt i))) (zc (tv ts t (prv i))))%Z) by (rewrite <- Ei; apply (pl_ccw points ts t i HP Lt)).
  all: assert (Y1 : ylt (zc (tv ts t (nxt i))) (zc eq)) by (apply (tf_high _ _ _ _ _ TF); auto; exists t, (nxt i); auto).
  all: assert (Y2 : ylt (zc (tv ts t (prv i))) (zc eq)) by (apply (tf_high _ _ _ _ _ TF); auto; exists t, (prv i); auto).
  all: pose proof (mu_lt eq _ _ NC Leq L1 L2 Y1 Y2 O) as ML.
  { lia. }
  assert (exists f, fuel = S f) as [f ->] by (destruct fuel; [lia|eauto]).
  destruct (Nat.eq_dec (tv ts t (prv i)) ep) as [Q|N2].
  { apply proc_mark; auto. destruct (edge_index_V (tri_at ts t) (nxt i) Dt) as [_ Q2]. rewrite nxt_nxt, prv_nxt in Q2.
    change (V (tri_at ts t) (prv i)) with (tv ts t (prv i)) in Q2. change (V (tri_at ts t) i) with (tv ts t i) in Q2.
    destruct (edge_index_V (tri_at ts t) (nxt i) Dt) as [Q3 _]. rewrite nxt_nxt, prv_nxt in Q3.
    change (V (tri_at ts t) (prv i)) with (tv ts t (prv i)) in Q3. change (V (tri_at ts t) i) with (tv ts t i) in Q3.
    rewrite Ei, Q in Q2, Q3. first [rewrite Q2; discriminate|rewrite Q3; discriminate]. }
  destruct P2 as [P2|P2]; [contradiction|].
  destruct (Nat.eq_dec (tv ts t (nxt i)) ep) as [Q|N1].
  { apply proc_mark; auto. destruct (edge_index_V (tri_at ts t) (prv i) Dt) as [Q2 Q3]. rewrite nxt_prv, prv_prv in Q2, Q3.
    change (V (tri_at ts t) (nxt i)) with (tv ts t (nxt i)) in Q2, Q3. change (V (tri_at ts t) i) with (tv ts t i) in Q2, Q3.
    rewrite Ei, Q in Q2, Q3. first [rewrite Q2; discriminate|rewrite Q3; discriminate]. }
  assert (NZ : orient (zc eq) (zc (tv ts t (nxt i))) (zc ep) <> 0%Z) by (apply NC; auto).
  destruct (Z_lt_le_dec 0 (orient (zc eq) (zc (tv ts t (nxt i))) (zc ep))) as [G|G].
  - apply (proj1 (insert_tot dbg points PP NC SX D n ns (S f)) None All (n + 1) ep eq ce t [] s K F HCR); [reflexivity|].
    right. left. exists i. split; auto. split; [split; auto; split; auto; split; auto|].
    pose proof (kap_le points eq (tv ts t (nxt i)) (tv ts t (prv i))). lia.
  - destruct (tn ts t (prv i)) as [g|] eqn:TG; [|specialize (LFT t i Lt Ei TG); lia].
    destruct (m_adj M t (prv i) g Lt TG) as (j & PR). pose proof PR as (_ & Lg & _ & _ & O1 & O2). rewrite nxt_prv in O1. rewrite prv_prv in O2.
    apply (proc_go dbg points PP f ep eq ce t i); auto. right. split; [lia|]. split; auto. exists g. split; auto.
    assert (Eg : tv ts g (prv j) = eq) by congruence. assert (Eh : tv ts g (prv (prv j)) = tv ts t (nxt i)) by (rewrite prv_prv; congruence).
    apply (IH f g (prv j)); auto; [rewrite Eh; right; lia|rewrite Eh; lia|lia].
Qed.
End Walk.

(** ** the front next to the upper end *)
Section Ends.
Variables (D vs : list nat) (s : Sweeper) (p q : nat).
Hypothesis T : TK D vs s.
Hypothesis SX : sx vs.
Hypothesis Dp : In p D.
Hypothesis CL : clear p q vs.
Hypothesis YP : ylt (zc p) (zc q).
Hypothesis YV : forall v, In v vs -> v <> q -> ylt (zc v) (zc q).
Lemma orient_q a b : orient (zc q) (zc a) (zc b) = ((fst (zc a) - fst (zc q)) * (snd (zc b) - snd (zc q)) - (snd (zc a) - snd (zc q)) * (fst (zc b) - fst (zc q)))%Z.
Proof using. clear. destruct (zc q) as [x0 y0], (zc a) as [x1 y1], (zc b) as [x2 y2]. unfold orient, F64.orient_det. cbn [fst snd]. ring. Qed.
Lemma right_of w : adj vs q w -> (orient (zc q) (zc w) (zc p) <= 0)%Z.
Proof using T SX Dp CL YP YV.
  intro AD. pose proof (adj_lt points D vs s q w T SX AD) as X. pose proof (adj_in _ _ _ AD) as [_ Iw].
  assert (Yw : ylt (zc w) (zc q)) by (apply YV; auto; intros ->; lia).
  destruct (Z_lt_le_dec (fst (zc p)) (fst (zc q))) as [C1|C1].
  - rewrite orient_q. unfold ylt in YP, Yw. assert (0 <= (fst (zc w) - fst (zc q)) * (snd (zc q) - snd (zc p)))%Z by (apply mulnn; lia).
    assert (0 <= (snd (zc q) - snd (zc w)) * (fst (zc q) - fst (zc p)))%Z by (apply mulnn; lia). lia.
  - destruct (Z_lt_le_dec (fst (zc w)) (fst (zc p))) as [C2|C2].
    + pose proof (proj1 (CL w Iw) ltac:(lia)) as H. unfold ht in H. rewrite orient_swap'. lia.
    + apply (adj_end points D vs s q w p); auto.
Qed.
Lemma left_of u : adj vs u q -> (0 <= orient (zc q) (zc u) (zc p))%Z.
Proof using T SX Dp CL YP YV.
  intro AD. pose proof (adj_lt points D vs s u q T SX AD) as X. pose proof (adj_in _ _ _ AD) as [Iu _].
  assert (Yu : ylt (zc u) (zc q)) by (apply YV; auto; intros ->; lia).
  destruct (Z_lt_le_dec (fst (zc q)) (fst (zc p))) as [C1|C1].
  - rewrite orient_q. unfold ylt in YP, Yu. assert (0 <= (fst (zc q) - fst (zc u)) * (snd (zc q) - snd (zc p)))%Z by (apply mulnn; lia).
    assert (0 <= (snd (zc q) - snd (zc u)) * (fst (zc p) - fst (zc q)))%Z by (apply mulnn; lia). lia.
  - destruct (Z_lt_le_dec (fst (zc p)) (fst (zc u))) as [C2|C2].
    + pose proof (proj2 (CL u Iu) ltac:(lia)) as H. unfold ht in H. rewrite orient_rot, orient_rot in H. exact H.
    + assert (H : (orient (zc u) (zc q) (zc p) <= 0)%Z) by (apply (adj_end points D vs s u q p); auto). rewrite orient_swap. lia.
Qed.
End Ends.

(** ** the pieces of the event *)
Lemma node_cache_tot D L q R pq s : TK D (L ++ q :: R) s -> nth_error (ps_points points) q = Some pq ->
  wp (node_with_cache pq) s never (fun n s' => ref (s_front s') L q R n /\ TK D (L ++ q :: R) s' /\ s_tris s' = s_tris s /\ s_trace s' = s_trace s).
Proof using PP.
  intros T Hq. pose proof (tk_fo _ _ _ _ T) as FO. pose proof (tk_C _ _ _ _ T) as C. pose proof (tk_vs _ _ _ _ T) as TV. unfold vs_of in TV.
  destruct (get_pt_cache points PP (s_front s) C q pq L R (proj2 FO) Hq TV) as (nd & GN & RF).
  assert (W : wp (node_with_cache pq) s never (fun n s' => n = nd /\ s' = mkSw (s_tris s) (mkFront (nodes (s_front s)) (Some (pq, length L))) (s_result s) (s_trace s))).
  { unfold node_with_cache. apply wp_bind, wp_get_front. apply wp_bind, wp_lift. rewrite GN. cbn [okr]. apply wp_bind, wp_put_front. apply wp_bind, wp_lift. cbn [okr unwrap]. apply wp_ret. auto. }
  eapply wp_mono; [apply wp_and; [exact W|apply (node_with_cache_inv points PP D q pq Hq s (tk_inv _ _ _ _ T))]|intros ? ? [[] _]|].
  intros x s' [[-> ->] (I1 & _)]. cbn [s_front s_tris]. destruct RF as (R1 & R2 & R3). split; [split; auto|]. split; [destruct T; constructor; auto|]. split; auto.
Qed.
Lemma legalize_all_tot D fuel : enough fuel -> forall Q s, J s -> Good (s_trace s) -> Kst D [] Q (s_tris s) (s_front s) -> Forall (fun r => r < length (s_tris s)) Q -> length (s_tris s) <= 2 * N ->
  wp (legalize_all dbg points fuel (map Some Q)) s never (fun _ s' => length (s_tris s') = length (s_tris s) /\ same_nodes (nodes (s_front s)) (nodes (s_front s')) /\ Good (s_trace s')).
Proof using PP.
  intros [EF _]. induction Q as [|a Q IH]; intros s HJ HG K FQ LL; cbn [map legalize_all].
  - apply wp_skip. split; auto. split; auto. apply same_refl.
  - inversion FQ as [|? ? La FQ']; subst. apply wp_bind.
    assert (K' : Kst D [Some a] (a :: Q) (s_tris s) (s_front s)). { destruct K as [K1 K2 K3 K4 K5 K6 K7 K8]. constructor; auto. eapply bnd_weaken; [exact K4|]. intros ? []. }
    eapply wp_mono; [apply (legalize_K dbg points PP fuel a s D Q); auto| |].
    + intros f s' (_ & _ & H). lia.
    + intros ? s1 (HJ1 & HG1 & K1 & L1 & SN & _). eapply wp_mono; [apply IH; auto|auto|].
      * rewrite L1. exact FQ'.
      * rewrite L1. exact LL.
      * intros ? s2 (L2 & SN2 & G2). split; [congruence|split; auto; eapply same_trans; eauto].
Qed.

(** fuel for one edge *)
Definition EB : nat := BB (2 * N) (2 * N + 1) + 4 * N + 3.
Lemma EB_ge n : n <= 2 * N -> BB n (n + 1) + 3 * N + 3 + N <= EB.
Proof using. intro L. unfold EB, InsertTotal.BB. assert ((n + 1) * (n + 3 * N + 5) <= (2 * N + 1) * (2 * N + 3 * N + 5)) by (apply Nat.mul_le_mono; lia). lia. Qed.

(** the front part of the invariant *)
Definition FP (D : list nat) (q : nat) (s : Sweeper) : Prop :=
  exists L R, sx (L ++ q :: R) /\ covered zc D (L ++ q :: R) /\ vs_of s = L ++ q :: R /\ length (s_tris s) + length (L ++ q :: R) = 2 * length D + 2.
Lemma TK_FP D L q R s : TK D (L ++ q :: R) s -> sx (L ++ q :: R) -> FP D q s.
Proof using. intros T SX. exists L, R. destruct T. auto. Qed.
Lemma FP_same D q s s' : FP D q s -> vs_of s' = vs_of s -> length (s_tris s') = length (s_tris s) -> FP D q s'.
Proof using. intros (L & R & H1 & H2 & H3 & H4) V LL. exists L, R. split; auto. split; auto. split; [congruence|]. rewrite LL. auto. Qed.

Lemma edge_event_tot D fuel p q pq L R s : planar points -> Fuel (2 * N + 6 + EB) fuel -> TK D (L ++ q :: R) s -> sx (L ++ q :: R) ->
  nth_error (ps_points points) q = Some pq -> edge_ok points D p q -> In q D -> p < ps_head points -> Ed p q ->
  gd (edge_event dbg points fuel (mkEdge p q) pq) s (fun _ s' => FP D q s' /\ Good (s_trace s') /\
    InvM points D (mkEdge p q :: edges_of (s_trace s')) s' /\ marked_edge (s_tris s') p q).
Proof using PP.
  intros PN FU T SX Hq OK Dq Lp EP_. pose proof OK as (NE & Dp & Lh & HY & IE). pose proof (pn_col _ PN) as NC. pose proof (pn_scan _ PN) as SCE.
  pose proof (scan_exact_sound points SCE) as SC.
  assert (X : gd (edge_event dbg points fuel (mkEdge p q) pq) s (fun _ s' => FP D q s')).
  2:{ eapply gd_mono; [eapply gd_wp; [apply gd_good; exact X|apply (edge_event_inv dbg points PP D fuel p q pq s SC (tk_inv _ _ _ _ T) Hq OK)]|].
      intros _ s' [[H1 H2] [H3 H4]]. split; auto. }
  assert (Lp' : p < N) by (pose proof (pr_head points PP); lia).
  destruct (pt_fin points PP p Lp') as (pp & Ep & Hp & _).
  assert (GPT : forall tr x, pres (Grown tr) (Grown tr) (put_tris x)) by (intros tr x s0 H; exact H).
  assert (GPF : forall tr x, pres (Grown tr) (Grown tr) (put_front x)) by (intros tr x s0 H; exact H).
  assert (GE : forall tr fu i ce, pres (Grown tr) (Grown tr) (fill_edge_event dbg points fu ce i)).
  { intros tr fu i ce. apply (fill_edge_event_pres dbg points _ _ (Grown_IJ tr)). intros. apply gr_fill_one. }
  assert (GT : forall tr a b t, pres (Grown tr) (Grown tr) (try_mark_edge_for_triangle a b t)).
  { intros tr a b t. unfold try_mark_edge_for_triangle. pres_go (Grown_IJ tr); auto. }
  assert (GN : forall tr q, pres (Grown tr) (Grown tr) (node_with_cache q)).
  { intros tr q0. unfold node_with_cache. pres_go (Grown_IJ tr); auto. }
  assert (GP : forall tr fu ep eq ce t p q, pres (Grown tr) (Grown tr) (edge_event_process dbg points fu ep eq ce t p q)).
  { intros tr fu. apply (proj1 (grow_edge_process dbg points _ (Grown_X tr) fu)). }
  assert (GL : forall tr fu l, pres (Grown tr) (Grown tr) (legalize_all dbg points fu l)).
  { intros tr fu l. apply (grow_legalize_all dbg points _ (Grown_X tr)). }
  unfold edge_event. cbn [e_p e_q]. eapply gd_lift; [exact Ep|]. cbv zeta.
  match goal with |- context [fill_edge_event dbg points fuel ?c _] => set (ce := c) end.
  set (rest := fun nd : NodeRef => bind (lift (unwrap P_triangle_unwrap (nr_tri nd))) (fun triangle => bind (edge_event_process dbg points fuel p q ce (Some triangle) q []) (fun ids => legalize_all dbg points fuel ids))).
  assert (GR : forall nd tr, pres (Grown tr) (Grown tr) (rest nd)) by (intros nd tr; unfold rest; pres_go (Grown_IJ tr); auto).
  assert (GF : forall (b : bool) nd tr, pres (Grown tr) (Grown tr) (if b then skip else bind (fill_edge_event dbg points fuel ce (get_node_id nd)) (fun _ => bind (node_with_cache pq) rest)))
    by (intros [] nd tr; pres_go (Grown_IJ tr); auto).
  apply gd_bind; [intros nd tr; pres_go (Grown_IJ tr); auto; apply GF|].
  eapply gd_mono; [apply gd_of_wp; eapply wp_mono; [apply (node_cache_tot D L q R pq s T Hq)|auto|intros ? ? (H1 & H2 & H3 & H4); cbv beta; rewrite H4; split; [exact (conj H1 (conj H2 H3))|auto]]|]. intros nd s1 (RF & T1 & S1). cbv beta.
  (* the triangle of a node on the front *)
  assert (TRI : forall L' R' nd' s', TK D (L' ++ q :: R') s' -> ref (s_front s') L' q R' nd' ->
    exists w R2 t l, R' = w :: R2 /\ nr_tri nd' = Some t /\ t < length (s_tris s') /\ tv (s_tris s') t (nxt l) = w /\ tv (s_tris s') t (prv l) = q).
  { intros L' R' nd' s' T' RF'. pose proof (tk_C _ _ _ _ T') as C'. pose proof (tk_vs _ _ _ _ T') as TV'. unfold vs_of in TV'.
    destruct RF' as (R1 & R2 & (e & R3 & R4)). destruct R' as [|w R'].
    - exfalso. destruct (ch_last _ _ C') as (e' & He' & Pe'). assert (LL : length (nodes (s_front s')) = S (length L')) by (rewrite <- (map_length en_pid), TV', app_length; simpl; lia).
      rewrite LL in He'. replace (S (length L') - 1) with (length L') in He' by lia. assert (Z : nth_error (map en_pid (nodes (s_front s'))) (length L') = Some q) by (rewrite TV'; apply nth_app_mid).
      apply nth_map in Z as (e2 & Z1 & Z2). pose proof (pr_head points PP). pose proof (pr_tail points PP). assert (e2 = e') by congruence. subst e2. lia.
    - assert (Z : nth_error (map en_pid (nodes (s_front s'))) (S (length L')) = Some w).
      { rewrite TV'. replace (S (length L')) with (length (L' ++ [q])) by (rewrite app_length; simpl; lia). rewrite (app_assoc L' [q] (w :: R') : L' ++ q :: w :: R' = (L' ++ [q]) ++ w :: R'). apply nth_app_mid. }
      apply nth_map in Z as (e2 & Z1 & Z2). rewrite R2 in R3.
      assert (Pe : en_pid e = q). { assert (Z : nth_error (map en_pid (nodes (s_front s'))) (length L') = Some q) by (rewrite TV'; apply nth_app_mid). apply nth_map in Z as (e3 & Z3 & Z4). congruence. }
      destruct (front_pos points _ _ (k_bnd _ _ _ _ _ _ (tk_K _ _ _ _ T')) (length L') e e2 R3 Z1) as ([t l] & [LP _] & PE & TP). unfold pedge in PE. cbn [fst snd] in *.
      exists w, R', t, l. split; auto. split; [rewrite R4; cbn [to_node nr_tri]; exact TP|]. split; auto. injection PE as Q1 Q2. split; congruence. }
  destruct (TRI _ _ _ _ T1 RF) as (w1 & R1 & t1 & l1 & EQR & ET & Lt1 & _). eapply gd_lift; [rewrite ET; reflexivity|].
  apply gd_bind; [intros b tr; apply GF|].
  eapply gd_mono; [apply gd_of_wp; eapply wp_mono; [apply (try_mark_wp points p q t1 s1); [apply (tk_K _ _ _ _ T1)|exact Lt1]|auto|intros b s' H; cbv beta in H |- *; split; [exact H|destruct b; [destruct H as (? & -> & _)|destruct H as (-> & _)]; auto]]|].
  intros [] s2 H; cbv beta iota in H.
  { destruct H as (ts' & -> & MM & _). apply gd_skip. eapply FP_same; [eapply TK_FP; [exact T1|exact SX]|reflexivity|]. cbn [s_tris]. exact (al_len _ _ (mm_alike _ _ MM)). }
  destruct H as [-> _].
  destruct (ref_pid points _ (tk_C _ _ _ _ T1) _ _ _ _ RF) as (_ & _ & Q1 & Q2).
  assert (FU1 : Fuel (2 * N + 6) fuel) by (eapply Fuel_down; eauto; lia).
  apply gd_bind; [intros b tr; pres_go (Grown_IJ tr); auto; apply GR|].
  eapply gd_mono; [apply (fill_edge_event_tot dbg points PP D p q pp pq ce (get_node_id nd) L R s1 fuel); auto|].
  intros _ s3 (vs3 & T3 & SX3 & I3 & CL3). apply in_split in I3 as (L3 & R3 & ->).
  apply gd_bind; [intros b tr; apply GR|].
  eapply gd_mono; [apply gd_of_wp; eapply wp_mono; [apply (node_cache_tot D L3 q R3 pq s3 T3 Hq)|auto|intros ? ? (H1 & H2 & H3 & H4); cbv beta; rewrite H4; split; [exact (conj H1 (conj H2 H3))|auto]]|]. intros nd4 s4 (RF4 & T4 & S4). cbv beta. clear T3.
  destruct (TRI _ _ _ _ T4 RF4) as (w & R4 & t & l & -> & ET4 & Lt & Tw & Tq). eapply gd_lift; [rewrite ET4; reflexivity|].
  pose proof (tk_K _ _ _ _ T4) as K4. set (n := length (s_tris s4)) in *. set (ns := nodes (s_front s4)).
  assert (Ln : n <= 2 * N). { pose proof (tk_cnt _ _ _ _ T4) as Z1. pose proof (tk_D _ _ _ _ T4). pose proof (tk_len2 points PP _ _ _ T4). unfold n. lia. }
  assert (EP4 : EP D n ns [] s4).
  { exists []. split; auto. split; [apply (tk_inv _ _ _ _ T4)|]. split; [apply (tk_good _ _ _ _ T4)|]. split; auto. split; auto. split; auto. apply same_refl. }
  assert (FR : frame None All p q (q_id ce) (s_tris s4)).
  { change (q_id ce) with q. eapply edge_frame; eauto; [apply K4|]. pose proof (tk_inv _ _ _ _ T4) as (_ & _ & HM). apply HM. apply (tk_good _ _ _ _ T4). }
  assert (HCR : CR zc All p q (s_tris s4)) by (eapply CR_start; eauto; apply in_or_app; simpl; auto).
  assert (YP : ylt (zc p) (zc q)) by (apply HY; auto).
  assert (YV : forall v, In v (L3 ++ q :: w :: R4) -> v <> q -> ylt (zc v) (zc q)).
  { intros v Hv Nv. destruct (pr_frame points PP q Lh) as (_ & F1 & F2). pose proof (tk_vs _ _ _ _ T4) as TV. unfold vs_of in TV. rewrite <- TV in Hv.
    apply In_nth_error in Hv as [i Hi]. apply nth_map in Hi as (e & He & <-). destruct (k_in _ _ _ _ _ _ K4 _ _ He) as [H|[-> | ->]]; [apply HY; auto|left; auto|left; auto]. }
  assert (ADw : adj (L3 ++ q :: w :: R4) q w) by (apply adj_split; eauto).
  assert (Nqw : q <> w). { intro Q. pose proof (adj_lt points D _ s4 q w T4 SX3 ADw). rewrite <- Q in *. lia. }
  assert (Lw : w < N) by (eapply (tk_range _ _ _ _ T4); apply in_or_app; simpl; auto).
  assert (Lq : q < N) by (eapply (tk_range _ _ _ _ T4); apply in_or_app; simpl; auto).
  assert (W : wp (edge_event_process dbg points fuel p q ce (Some t) q []) s4 never (fun _ _ => True)).
  { apply (walk_tot NC SCE D n ns p q ce s4 EP4 FR HCR) with (k := N) (i := prv l); auto; rewrite ?prv_prv, ?Tw.
    - intros t' i' Lt' Ei' TN'.
      assert (BP : bpos (s_tris s4) (t', prv i')) by (split; [exact Lt'|exact TN']).
      destruct (bd_only _ _ _ _ _ _ (k_bnd _ _ _ _ _ _ K4) _ BP) as [Q|(e & e' & AD & Q)]; unfold pedge in Q; cbn [fst snd] in Q; rewrite nxt_prv, prv_prv, Ei' in Q; injection Q as Q3 Q4.
      + lia.
      + rewrite Q4. apply adjacent_adj in AD. pose proof (tk_vs _ _ _ _ T4) as TV. unfold vs_of in TV. rewrite TV, <- Q3 in AD.
        apply (left_of D (L3 ++ q :: w :: R4) s4 p q T4 SX3 Dp CL3 YP YV). exact AD.
    - destruct (Nat.eq_dec w p) as [|Nw]; auto. right. pose proof (right_of D (L3 ++ q :: w :: R4) s4 p q T4 SX3 Dp CL3 YP YV w ADw).
      assert (orient (zc q) (zc w) (zc p) <> 0)%Z by (apply NC; auto). lia.
    - apply cnt_le.
    - pose proof (EB_ge n Ln). destruct FU as (m & _ & FU). lia. }
  assert (A4 : forall a, Some t = Some a -> a < n) by (intros a Q; injection Q as <-; exact Lt).
  apply gd_bind; [intros ids tr; apply GL|].
  eapply gd_mono; [apply gd_of_wp; eapply wp_mono; [apply wp_and; [exact W|apply (proj1 (edge_process_wp dbg points PP D n ns SC fuel) p q ce (Some t) [] s4 NE EP4 A4)]|intros ? ? [[] _]|intros ? s' [_ H]; split; [exact H|intros _; destruct H as [(? & _ & _ & HG & _) _]; exact HG]]|].
  intros ids s5 [(Qn & -> & HJ5 & HG5 & K5 & FQ & L5 & SN5) _].
  eapply gd_mono; [apply gd_of_wp; eapply wp_mono; [apply (legalize_all_tot D fuel (Fuel_enough _ _ _ FU) Qn s5 HJ5 HG5 K5)|auto|intros ? ? H; cbv beta; split; [exact H|intros _; apply H]]|].
  - rewrite L5. exact FQ.
  - rewrite L5. exact Ln.
  - intros _ s6 (L6 & SN6 & _). eapply FP_same; [eapply TK_FP; [exact T4|exact SX3]| |].
    + unfold vs_of. rewrite (same_pids _ _ SN6). rewrite (same_pids _ _ SN5). reflexivity.
    + rewrite L6. exact L5.
Qed.
End S.
