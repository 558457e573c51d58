(** * EdgeFill: the filling before an edge is inserted

    Every call succeeds as long as the filled triangles are counter-clockwise,
    and afterwards no point of the front between the two ends is below the
    edge. *)
From Coq Require Import List Arith Bool Lia ZArith.
From Verif Require Import Base Num Shape ShapeSpec Utils Points Triangles Front Sweeper Cdt F64 Lists Monad Traverse TraceSpec Grow Exact
  FrontSpec Geom Mesh Rotate Setup Legal Legalize Boundary Chain Remap Attach FrontInv Disc Good Marks Flips Cone Planar Corridor Frames Insert Fills FanAll Total FrontSub FillTotal.
Import ListNotations.

(** ** height above a line that is not vertical *)
Section Line.
Local Open Scope Z_scope.
Variables l r : zpt.
Hypothesis LR : fst l < fst r.
Definition ht (v : zpt) : Z := orient l r v.
Lemma ht_id i v w : (fst r - fst l) * orient i v w = (fst v - fst i) * (ht w - ht i) - (ht v - ht i) * (fst w - fst i).
Proof using. clear LR. unfold ht, orient, orient_det. generalize (fst l) (snd l) (fst r) (snd r) (fst i) (snd i) (fst v) (snd v) (fst w) (snd w). intros. ring. Qed.
Lemma mulpos a b : 0 < a -> 0 < b -> 0 < a * b. Proof using. apply Z.mul_pos_pos. Qed.
Lemma mulnn a b : 0 <= a -> 0 <= b -> 0 <= a * b. Proof using. apply Z.mul_nonneg_nonneg. Qed.
Lemma possign a b : 0 < a -> 0 < a * b -> 0 < b.
Proof using. intros H1 H2. destruct (Z_lt_le_dec 0 b); auto. assert (0 <= a * (- b)) by (apply mulnn; lia). lia. Qed.
Lemma nonpos a b : 0 < a -> b <= 0 -> a * b <= 0.
Proof using. intros H1 H2. assert (0 <= a * (- b)) by (apply mulnn; lia). lia. Qed.
Lemma ht_down i v w : fst i < fst v -> fst v < fst w -> orient i v w <= 0 -> ht v < ht i -> ht w < ht v.
Proof using LR.
  intros X1 X2 O H. destruct (Z_lt_le_dec (ht w) (ht v)) as [Q|Q]; auto. exfalso. pose proof (ht_id i v w) as I.
  pose proof (nonpos (fst r - fst l) (orient i v w) ltac:(lia) O) as Y1.
  pose proof (mulnn (fst v - fst i) (ht w - ht v) ltac:(lia) ltac:(lia)) as Y2.
  pose proof (mulpos (ht i - ht v) (fst w - fst v) ltac:(lia) ltac:(lia)) as Y3. lia.
Qed.
Lemma ht_down_l t u i : fst t < fst u -> fst u < fst i -> orient t u i <= 0 -> ht u < ht i -> ht t < ht u.
Proof using LR.
  intros X1 X2 O H. destruct (Z_lt_le_dec (ht t) (ht u)) as [Q|Q]; auto. exfalso. pose proof (ht_id t u i) as I.
  pose proof (nonpos (fst r - fst l) (orient t u i) ltac:(lia) O) as Y1.
  pose proof (mulnn (ht t - ht u) (fst i - fst u) ltac:(lia) ltac:(lia)) as Y2.
  pose proof (mulpos (fst u - fst t) (ht i - ht u) ltac:(lia) ltac:(lia)) as Y3. lia.
Qed.
Lemma ht_under v m w : fst v <= fst m -> fst m <= fst w -> ht m = 0 -> 0 < orient v m w -> (ht v < 0 -> 0 < ht w) /\ (ht w < 0 -> 0 < ht v).
Proof using LR.
  intros X1 X2 H O. pose proof (ht_id v m w) as I. rewrite H in I. pose proof (mulpos (fst r - fst l) (orient v m w) ltac:(lia) O) as Y1.
  split; intro HH.
  - destruct (Z_lt_le_dec 0 (ht w)) as [Q|Q]; auto. pose proof (mulnn (fst m - fst v) (- ht w) ltac:(lia) ltac:(lia)). pose proof (mulnn (- ht v) (fst w - fst m) ltac:(lia) ltac:(lia)). lia.
  - destruct (Z_lt_le_dec 0 (ht v)) as [Q|Q]; auto. pose proof (mulnn (fst m - fst v) (- ht w) ltac:(lia) ltac:(lia)). pose proof (mulnn (- ht v) (fst w - fst m) ltac:(lia) ltac:(lia)). lia.
Qed.
Lemma ht_valley i v w : fst i < fst v -> fst v < fst w -> 0 <= ht i -> ht v < 0 -> 0 <= ht w -> 0 < orient i v w.
Proof using LR.
  intros X1 X2 H1 H2 H3. pose proof (ht_id i v w) as I. apply (possign (fst r - fst l)); [lia|].
  pose proof (mulnn (fst v - fst i) (ht w) ltac:(lia) ltac:(lia)). pose proof (mulnn (ht i) (fst w - fst v) ltac:(lia) ltac:(lia)). pose proof (mulpos (- ht v) (fst w - fst i) ltac:(lia) ltac:(lia)). lia.
Qed.
End Line.

Section S.
Context {A : Arith} {E : Exact A}.
Variable dbg : bool.
Variable points : Points.
Hypothesis PP : proper points.
Notation N := (npts points).
Notation zc := (zc points).
Notation Good := (Good points).
Notation nid_ok := (nid_ok points).
Context {Ed : nat -> nat -> Prop}.
Notation gd := (gd (Ed:=Ed) points).
Notation TK := (TK points).
Notation enough := (enough points).
Notation Fuel := (Fuel points).
Notation sx := (sx points).

Lemma q_fill_one tr fuel id : pres (Grown tr) (Grown tr) (fill_one dbg points fuel id). Proof using. apply gr_fill_one. Qed.
Lemma q_right_concave tr fuel e id : pres (Grown tr) (Grown tr) (fill_right_concave_edge_event dbg points fuel e id).
Proof using. apply fill_right_concave_pres; [apply Grown_IJ|]. intros. apply gr_fill_one. Qed.
Lemma q_right_convex tr fuel e id : pres (Grown tr) (Grown tr) (fill_right_convex_edge_event dbg points fuel e id).
Proof using. apply fill_right_convex_pres; [apply Grown_IJ|]. intros. apply gr_fill_one. Qed.
Lemma q_right_below tr fuel e id : pres (Grown tr) (Grown tr) (fill_right_below_edge_event dbg points fuel e id).
Proof using. apply fill_right_below_pres; [apply Grown_IJ|]. intros. apply gr_fill_one. Qed.
Lemma q_right_above tr fuel e id : pres (Grown tr) (Grown tr) (fill_right_above_edge_event dbg points fuel e id).
Proof using. apply fill_right_above_pres; [apply Grown_IJ|]. intros. apply gr_fill_one. Qed.
Lemma q_left_concave tr fuel e id : pres (Grown tr) (Grown tr) (fill_left_concave_edge_event dbg points fuel e id).
Proof using. apply fill_left_concave_pres; [apply Grown_IJ|]. intros. apply gr_fill_one. Qed.
Lemma q_left_convex tr fuel e id : pres (Grown tr) (Grown tr) (fill_left_convex_edge_event dbg points fuel e id).
Proof using. apply fill_left_convex_pres; [apply Grown_IJ|]. intros. apply gr_fill_one. Qed.
Lemma q_left_below tr fuel e id : pres (Grown tr) (Grown tr) (fill_left_below_edge_event dbg points fuel e id).
Proof using. apply fill_left_below_pres; [apply Grown_IJ|]. intros. apply gr_fill_one. Qed.
Lemma q_left_above tr fuel e id : pres (Grown tr) (Grown tr) (fill_left_above_edge_event dbg points fuel e id).
Proof using. apply fill_left_above_pres; [apply Grown_IJ|]. intros. apply gr_fill_one. Qed.
Hint Resolve q_fill_one q_right_concave q_right_convex q_right_below q_right_above q_left_concave q_left_convex q_left_below q_left_above : pres.
Ltac grow_go := let x := fresh "x" in let tr := fresh "tr" in intros x tr; pres_go (Grown_IJ tr).

(** ** comparing coordinates *)
Lemma lt_pt a b pa pb : nth_error (ps_points points) a = Some pa -> nth_error (ps_points points) b = Some pb ->
  f_lt (px pa) (px pb) = (fst (zc a) <? fst (zc b))%Z.
Proof using PP.
  intros Ha Hb. destruct (pt_finp points PP _ _ Ha) as [[Fa _] Za], (pt_finp points PP _ _ Hb) as [[Fb _] Zb]. rewrite x_lt by auto. rewrite <- Za, <- Zb. reflexivity.
Qed.
Lemma le_pt a b pa pb : nth_error (ps_points points) a = Some pa -> nth_error (ps_points points) b = Some pb ->
  f_le (px pa) (px pb) = (fst (zc a) <=? fst (zc b))%Z.
Proof using PP.
  intros Ha Hb. unfold f_le. rewrite (lt_pt a b pa pb Ha Hb). destruct (pt_finp points PP _ _ Ha) as [[Fa _] Za], (pt_finp points PP _ _ Hb) as [[Fb _] Zb].
  rewrite x_eq by auto. rewrite <- Za, <- Zb. cbn [fst zp]. destruct (Z.ltb_spec (zv (px pa)) (zv (px pb))), (Z.eqb_spec (zv (px pa)) (zv (px pb))), (Z.leb_spec (zv (px pa)) (zv (px pb))); simpl; auto; lia.
Qed.
Lemma sx_lt D vs s a b : TK D vs s -> sx vs -> In a vs -> In b vs -> xlt (zc a) (zc b) -> (fst (zc a) < fst (zc b))%Z.
Proof using. intros T S Ha Hb [X|[X1 X2]]; auto. rewrite (S a b Ha Hb X1) in X2. lia. Qed.
Lemma tk_last D L v s : TK D (L ++ [v]) s -> v = ps_tail points.
Proof using.
  intro T. destruct (ch_last _ _ (tk_C _ _ _ _ T)) as (e & H1 & H2). apply (map_nth_error en_pid) in H1. pose proof (tk_vs _ _ _ _ T) as V. unfold vs_of in V.
  assert (LL : length (nodes (s_front s)) = S (length L)) by (rewrite <- (map_length en_pid), V, app_length; simpl; lia).
  rewrite V, LL in H1. replace (S (length L) - 1) with (length L) in H1 by lia. rewrite nth_app_mid in H1. congruence.
Qed.
Lemma tk_first D v R s : TK D (v :: R) s -> v = ps_head points.
Proof using.
  intro T. destruct (ch_first _ _ (tk_C _ _ _ _ T)) as (e & H1 & H2). apply (map_nth_error en_pid) in H1. pose proof (tk_vs _ _ _ _ T) as V. unfold vs_of in V.
  rewrite V in H1. cbn in H1. congruence.
Qed.
(** a point between two neighbours on the front is under their edge *)
Lemma cover_at D L v w R s p : TK D (L ++ v :: w :: R) s -> In p D -> xlt (zc v) (zc p) -> xlt (zc p) (zc w) -> (0 < orient (zc v) (zc p) (zc w))%Z.
Proof using.
  intros T HD X1 X2. destruct (tk_split points D _ s L v (w :: R) T eq_refl) as (SL1 & _). 
  destruct (tk_split points D _ s (L ++ [v]) w R T) as (_ & SR2 & _); [rewrite <- app_assoc; reflexivity|].
  assert (GL : forall u, In u (L ++ [v]) -> ~ xlt (zc p) (zc u)).
  { intros u Hu Q. apply in_app_or in Hu as [Hu|[<-|[]]]; [|eapply xlt_asym; eauto]. apply (xlt_asym _ _ Q). eapply xlt_trans; eauto. }
  assert (GR : forall u, In u (w :: R) -> ~ xlt (zc u) (zc p)).
  { intros u [<-|Hu] Q; [eapply xlt_asym; eauto|]. apply (xlt_asym _ _ Q). eapply xlt_trans; eauto. }
  destruct (tk_below _ _ _ _ T p HD) as [I|(u' & w' & AD & Y1 & Y2 & Y3)].
  - exfalso. apply in_app_or in I as [I|[<-|[<-|I]]].
    + apply (xlt_asym _ _ (SL1 p I) X1).
    + apply (xlt_irrefl _ X1).
    + apply (xlt_irrefl _ X2).
    + apply (xlt_asym _ _ (SR2 p I) X2).
  - apply adj_app in AD as [AD|AD]; [apply adj_in in AD as [_ AD]; destruct (GL _ AD Y2)|].
    destruct AD as [[-> ->]|AD]; auto. apply adj_in in AD as [AD _]. destruct (GR _ AD Y1).
Qed.
(** the neighbour of a point below the line: not beyond the end, or above the line *)
Lemma next_right D L v w R s q p : TK D (L ++ v :: w :: R) s -> sx (L ++ v :: w :: R) -> In p D -> w <> p ->
  (fst (zc q) < fst (zc p))%Z -> (fst (zc v) < fst (zc p))%Z -> (ht (zc q) (zc p) (zc v) < 0)%Z ->
  (fst (zc w) < fst (zc p) \/ 0 < ht (zc q) (zc p) (zc w))%Z.
Proof using.
  intros T SX HD NW QP XV HV. destruct (tk_split points D _ s (L ++ [v]) w R T) as (SL2 & SR2 & _); [rewrite <- app_assoc; reflexivity|].
  destruct (xlt_total (zc w) (zc p)) as [X|[X|X]].
  - left. destruct X as [X|[X1 X2]]; auto. exfalso.
    destruct (tk_below _ _ _ _ T p HD) as [I|(u' & w' & AD & Y1 & Y2 & Y3)].
    + apply NW. apply SX; auto. apply in_or_app. simpl. auto.
    + assert (XW : xlt (zc w) (zc p)) by (right; auto).
      assert (XU : (fst (zc w) <= fst (zc u'))%Z).
      { replace (L ++ v :: w :: R) with ((L ++ [v]) ++ w :: R) in AD by (rewrite <- app_assoc; auto). apply adj_app in AD as [AD|AD].
        - exfalso. apply adj_in in AD as [_ AD]. apply in_app_or in AD as [AD|[<-|[]]]; [|apply (xlt_asym _ _ Y2 XW)].
          apply (xlt_asym _ _ XW). eapply xlt_trans; [exact Y2|]. apply SL2. exact AD.
        - apply adj_in in AD as [[->|AD] _]; [lia|]. specialize (SR2 _ AD). unfold xlt in SR2. lia. }
      unfold xlt in Y1, Y2. assert (orient (zc u') (zc p) (zc w') <= 0)%Z; [|lia].
      assert (fst (zc u') = fst (zc p) /\ snd (zc u') < snd (zc p))%Z as [Z1 Z2] by lia.
      assert (Q : orient (zc u') (zc p) (zc w') = ((fst (zc p) - fst (zc u')) * (snd (zc w') - snd (zc u')) - (snd (zc p) - snd (zc u')) * (fst (zc w') - fst (zc u')))%Z) by (zpts; ring).
      rewrite Q, Z1. assert (Z3 : (0 <= snd (zc p) - snd (zc u'))%Z) by lia. assert (Z4 : (0 <= fst (zc w') - fst (zc p))%Z) by lia. pose proof (mulnn _ _ Z3 Z4). lia.
  - exfalso. apply NW. apply (SX w p); [apply in_or_app; simpl; auto| |rewrite X; auto].
    destruct (tk_below _ _ _ _ T p HD) as [I|(u' & w' & AD & Y1 & Y2 & _)]; auto. exfalso. rewrite <- X in Y1, Y2.
    replace (L ++ v :: w :: R) with ((L ++ [v]) ++ w :: R) in AD by (rewrite <- app_assoc; auto). apply adj_app in AD as [AD|AD]; apply adj_in in AD as [A1 A2].
    + apply in_app_or in A2 as [A2|[<-|[]]]; [|apply (xlt_irrefl _ Y2)]. apply (xlt_asym _ _ Y2). auto.
    + destruct A1 as [<-|A1]; [apply (xlt_irrefl _ Y1)|]. apply (xlt_asym _ _ Y1). auto.
  - right. assert (XV' : xlt (zc v) (zc p)) by (left; auto). pose proof (cover_at _ _ _ _ _ _ _ T HD XV' X) as O.
    apply (ht_under (zc q) (zc p) QP (zc v) (zc p) (zc w)); auto; [lia|unfold xlt in X; lia|unfold ht; zpts; ring].
Qed.
Lemma next_left D L t u R s q p : TK D (L ++ t :: u :: R) s -> In p D -> t <> p -> t < N -> p < N ->
  (fst (zc p) < fst (zc q))%Z -> (fst (zc p) < fst (zc u))%Z -> (ht (zc p) (zc q) (zc u) < 0)%Z ->
  (fst (zc p) < fst (zc t) \/ 0 < ht (zc p) (zc q) (zc t))%Z.
Proof using PP.
  intros T HD NT Lt Lp PQ XU HU. destruct (xlt_total (zc t) (zc p)) as [X|[X|X]].
  - right. assert (XU' : xlt (zc p) (zc u)) by (left; auto). pose proof (cover_at _ _ _ _ _ _ _ T HD X XU') as O.
    apply (ht_under (zc p) (zc q) PQ (zc t) (zc p) (zc u)); auto; [unfold xlt in X; lia|lia|unfold ht; zpts; ring].
  - exfalso. apply NT. apply (pr_inj points PP); auto.
  - destruct X as [X|[X1 X2]]; auto. right. unfold ht.
    assert (Q : orient (zc p) (zc q) (zc t) = ((fst (zc q) - fst (zc p)) * (snd (zc t) - snd (zc p)) - (snd (zc q) - snd (zc p)) * (fst (zc t) - fst (zc p)))%Z) by (zpts; ring).
    rewrite Q, X1. assert (Z3 : (0 < fst (zc q) - fst (zc p))%Z) by lia. assert (Z4 : (0 < snd (zc t) - snd (zc p))%Z) by lia. pose proof (mulpos _ _ Z3 Z4). lia.
Qed.

(** ** edges that lean to the right *)
Section Right.
Variables (q p : nat) (pq pp : Point) (edge : ConstrainedEdge).
Hypothesis Hq : nth_error (ps_points points) q = Some pq.
Hypothesis Hp : nth_error (ps_points points) p = Some pp.
Hypothesis Eq : ce_q edge = pq.
Hypothesis Ep : ce_p edge = pp.
Hypothesis Ei : p_id edge = p.
Hypothesis Lp : p < ps_head points.
Hypothesis QP : (fst (zc q) < fst (zc p))%Z.
Hypothesis Lq : q < ps_head points.
Hypothesis IE : Ed p q.
Variable D : list nat.
Hypothesis HD : In p D.
Notation h v := (ht (zc q) (zc p) (zc v)).
Lemma q_ne_p : q <> p. Proof. intros ->. lia. Qed.
Lemma below_right w : (0 < orient (zc q) (zc w) (zc p))%Z <-> (h w < 0)%Z.
Proof. unfold ht. assert (Q : orient (zc q) (zc w) (zc p) = (- orient (zc q) (zc p) (zc w))%Z) by (zpts; ring). rewrite Q. lia. Qed.
Lemma below_test w pw : nth_error (ps_points points) w = Some pw -> w <> q -> w <> p ->
  exists o, orient_2d dbg (ce_q edge) pw (ce_p edge) = Done o /\ (is_ccw o = true <-> (h w < 0)%Z).
Proof.
  intros Hw N1 N2. pose proof q_ne_p. rewrite Eq, Ep. destruct (orient_ccw dbg points PP q w p pq pw pp Hq Hw Hp) as (o & H1 & H2 & _); auto. exists o. split; auto.
  rewrite H2. apply below_right.
Qed.
Lemma ne_after L id R s w : TK D (L ++ id :: R) s -> In q (L ++ [id]) -> In w R -> w <> q.
Proof.
  intros T IQ IW ->. destruct (tk_split points D _ s L id R T eq_refl) as (_ & _ & _ & NR). apply in_app_or in IQ as [IQ|[->|[]]]; auto.
  apply in_split in IW as (R1 & R2 & ->).
  destruct (tk_split points D _ s (L ++ id :: R1) q R2 T) as (_ & _ & NN & _); [rewrite <- app_assoc; reflexivity|]. apply NN, in_or_app; auto.
Qed.
Lemma in_mid {U} (L : list U) a b w R : In w (L ++ a :: w :: R) /\ In a (L ++ a :: w :: R) /\ In b (L ++ a :: w :: b :: R).
Proof. rewrite !in_app_iff. simpl. tauto. Qed.
Lemma not_last L v s : TK D (L ++ [v]) s -> (fst (zc v) < fst (zc p))%Z -> False.
Proof. intros T X. apply tk_last in T. subst v. destruct (pr_frame points PP p Lp) as (F1 & _). lia. Qed.

Lemma right_concave_tot : forall k fuel id L v w R s, length R <= k -> Fuel (S k) fuel -> TK D (L ++ ni_pid id :: v :: w :: R) s -> sx (L ++ ni_pid id :: v :: w :: R) -> nid_ok id ->
  In q (L ++ [ni_pid id]) -> (fst (zc v) < fst (zc p))%Z -> (h v < 0)%Z -> (tame points Ed -> (0 < orient (zc (ni_pid id)) (zc v) (zc w))%Z) ->
  gd (fill_right_concave_edge_event dbg points fuel edge id) s (fun _ s' => exists R', TK D (L ++ ni_pid id :: R') s' /\ sx (L ++ ni_pid id :: R') /\
     length R' < length (v :: w :: R) /\ (0 < orient (zc (ni_pid id)) (zc v) (zc w))%Z).
Proof.
  induction k as [|k IH]; intros fuel id L v w R s Lk F T SX Hid IQ XV HV TMH; apply Fuel_S in F as (f & -> & F); cbn [fill_right_concave_edge_event]; apply gd_front;
    pose proof (tk_C _ _ _ _ T) as C; destruct (next_id points PP (s_front s) C id L _ Hid (tk_vs _ _ _ _ T)) as (next & E1 & RX);
    (eapply gd_lift; [exact E1|]); (eapply gd_lift; [reflexivity|]); cbv zeta; destruct (ref_pid points _ C _ _ _ _ RX) as (_ & _ & Q1 & Q2);
    (apply gd_bind; [grow_go|]); (eapply gd_mono; [apply (fill_one_tot dbg points PP D f (get_node_id next) L (ni_pid id) w R s (Fuel_enough _ _ _ F)); [rewrite Q2; exact T|exact Q1|rewrite Q2; exact TMH]|]);
    intros r s' (fo & -> & H1 & H2 & H3 & H4 & T' & CC); rewrite Q2 in CC; cbv beta iota; rewrite H4, Ei;
    (assert (SX' : sx (L ++ ni_pid id :: w :: R)) by (eapply sx_incl; [exact SX|]; intros x; rewrite !in_app_iff; simpl; tauto));
    (assert (DONE : exists R', TK D (L ++ ni_pid id :: R') s' /\ sx (L ++ ni_pid id :: R') /\ length R' < length (v :: w :: R) /\ (0 < orient (zc (ni_pid id)) (zc v) (zc w))%Z)
      by (exists (w :: R); split; auto; split; auto; split; auto; simpl; lia));
    (destruct (Nat.eqb_spec w p) as [Wp|Wp]; cbn [negb]; [apply gd_skip; exact DONE|]);
    (assert (Hw : nth_error (ps_points points) w = Some (ni_point (fo_next fo))) by (rewrite <- H4; exact H3));
    (assert (Wq : w <> q) by (eapply ne_after; [exact T'|exact IQ|simpl; auto]));
    destruct (below_test w _ Hw Wq Wp) as (o & E2 & B2); (eapply gd_lift; [exact E2|]);
    (destruct (is_ccw o); [|apply gd_skip; exact DONE]); pose proof (proj1 B2 eq_refl) as Eo; apply gd_front;
    (assert (XW : (fst (zc w) < fst (zc p))%Z) by (assert (TT : TK D ((L ++ [ni_pid id]) ++ v :: w :: R) s) by (rewrite <- app_assoc; exact T);
       assert (SS : sx ((L ++ [ni_pid id]) ++ v :: w :: R)) by (rewrite <- app_assoc; exact SX);
       destruct (next_right D (L ++ [ni_pid id]) v w R s q p TT SS HD Wp QP XV HV); [auto|lia]));
    (destruct R as [|x R]; [exfalso; eapply (not_last (L ++ [ni_pid id])); [rewrite <- app_assoc; exact T'|exact XW]|]); cbn [length] in Lk; [lia|].
  pose proof (tk_C _ _ _ _ T') as C'. assert (T2 : TK D ((L ++ [ni_pid id]) ++ ni_pid (fo_next fo) :: x :: R) s') by (rewrite <- app_assoc, H4; exact T').
  destruct (next_id points PP (s_front s') C' (fo_next fo) (L ++ [ni_pid id]) _ H3 (tk_vs _ _ _ _ T2)) as (nn & E3 & RN).
  eapply gd_lift; [exact E3|]. eapply gd_lift; [reflexivity|]. destruct (ref_pid points _ C' _ _ _ _ RN) as (_ & Hx & _).
  destruct (tk_split points D _ s' L (ni_pid id) _ T' eq_refl) as (_ & Y1 & _ & Y2). destruct (tk_split points D _ s' _ _ _ T2 eq_refl) as (_ & _ & _ & Y3). rewrite H4 in Y3.
  destruct (orient_ccw dbg points PP (ni_pid id) w x _ _ _ Hid Hw Hx) as (o2 & E4 & B4 & _); [intro Z0; apply Y2; rewrite Z0; simpl; auto|intro Z0; apply Y3; rewrite Z0; simpl; auto|intro Z0; apply Y2; rewrite Z0; simpl; auto|].
  eapply gd_lift; [exact E4|]. destruct (is_ccw o2); [|apply gd_skip; exact DONE].
  eapply gd_mono; [apply (IH f id L w x R s'); auto; try lia; intros _; apply B4; reflexivity|]. intros _ s2 (R' & G1 & G2 & G3 & _). exists R'. split; auto. split; auto. split; auto. cbn [length] in *. lia.
Qed.

(** line 698: what the convex case fills is never a counter-clockwise triangle *)
Lemma right_convex_bad : ~ tame points Ed -> forall k fuel id L v w R s, length R <= k -> Fuel (S (S k)) fuel -> TK D (L ++ ni_pid id :: v :: w :: R) s -> sx (L ++ ni_pid id :: v :: w :: R) -> nid_ok id ->
  In q (L ++ [ni_pid id]) -> (fst (zc v) < fst (zc p))%Z -> (h v < 0)%Z -> (h v < h (ni_pid id))%Z -> (orient (zc (ni_pid id)) (zc v) (zc w) <= 0)%Z ->
  gd (fill_right_convex_edge_event dbg points fuel edge id) s (fun _ _ => False).
Proof.
  intro NT. induction k as [|k IH]; intros fuel id L v w R s Lk F T SX Hid IQ XV HV HD' CX; apply Fuel_S in F as (f & -> & F); cbn [fill_right_convex_edge_event]; apply gd_front;
    pose proof (tk_C _ _ _ _ T) as C; destruct (next_id points PP (s_front s) C id L _ Hid (tk_vs _ _ _ _ T)) as (next & E1 & RX);
    (eapply gd_lift; [exact E1|]); (eapply gd_lift; [reflexivity|]); destruct (ref_next _ _ _ _ _ RX) as (nn & E2 & RN); rewrite E2; (eapply gd_lift; [reflexivity|]);
    (assert (T1 : TK D ((L ++ [ni_pid id]) ++ v :: w :: R) s) by (rewrite <- app_assoc; exact T));
    (assert (S1 : sx ((L ++ [ni_pid id]) ++ v :: w :: R)) by (rewrite <- app_assoc; exact SX));
    (assert (X1 : (fst (zc (ni_pid id)) < fst (zc v))%Z) by (apply (sx_lt D _ s _ _ T SX); [rewrite in_app_iff; simpl; tauto|rewrite in_app_iff; simpl; tauto|apply (tk_split points D _ s L _ _ T eq_refl); simpl; auto]));
    (assert (X2 : (fst (zc v) < fst (zc w))%Z) by (apply (sx_lt D _ s _ _ T SX); [rewrite in_app_iff; simpl; tauto|rewrite in_app_iff; simpl; tauto|apply (tk_split points D _ s _ _ _ T1 eq_refl); simpl; auto]));
    pose proof (ht_down (zc q) (zc p) QP _ _ _ X1 X2 CX HD') as HW;
    (assert (Wp : w <> p) by (intro Z0; assert (Z1 : h p = 0%Z) by (unfold ht; zpts; ring); rewrite Z0 in HW; lia));
    (assert (Wq : w <> q) by (eapply ne_after; [exact T|exact IQ|simpl; auto]));
    (assert (XW : (fst (zc w) < fst (zc p))%Z) by (destruct (next_right D (L ++ [ni_pid id]) v w R s q p T1 S1 HD Wp QP XV HV); [auto|lia]));
    (assert (T2 : TK D ((L ++ [ni_pid id; v]) ++ w :: R) s) by (rewrite <- app_assoc; exact T));
    (destruct R as [|x R]; [exfalso; eapply not_last; [exact T2|exact XW]|]); cbn [length] in Lk; [lia|].
  destruct (ref_next _ _ _ _ _ RN) as (nnn & E3 & RNN). rewrite E3.
  destruct (ref_pid points _ C _ _ _ _ RX) as (_ & Hv & Q1 & Q2). destruct (ref_pid points _ C _ _ _ _ RN) as (_ & Hw & _). destruct (ref_pid points _ C _ _ _ _ RNN) as (_ & Hx & _).
  destruct (tk_split points D _ s _ _ _ T1 eq_refl) as (_ & _ & _ & Y2). destruct (tk_split points D _ s _ _ _ T2 eq_refl) as (_ & _ & _ & Y3).
  destruct (orient_ccw dbg points PP v w x _ _ _ Hv Hw Hx) as (o2 & E4 & B4 & _); [intro Z0; apply Y2; rewrite Z0; simpl; auto|intro Z0; apply Y3; rewrite Z0; simpl; auto|intro Z0; apply Y2; rewrite Z0; simpl; auto|].
  eapply gd_lift; [exact E4|]. destruct (is_ccw o2).
  - apply gd_bind; [grow_go|]. eapply gd_mono; [apply (right_concave_tot (S k) f id L v w (x :: R) s); auto; try (cbn [length]; lia); try (intro TM; destruct (NT TM))|]. cbv beta. intros _ s' (R' & _ & _ & _ & B). lia.
  - destruct (below_test w _ Hw Wq Wp) as (o & E5 & B5). eapply gd_lift; [exact E5|]. rewrite (proj2 B5 ltac:(lia)).
    assert (B6 : (orient (zc v) (zc w) (zc x) <= 0)%Z) by (destruct (Z_lt_le_dec 0 (orient (zc v) (zc w) (zc x))) as [Z0|Z0]; auto; apply B4 in Z0; discriminate).
    eapply gd_mono; [apply (IH f (get_node_id next) (L ++ [ni_pid id]) w x R s); rewrite ?Q2; auto; try lia|auto].
    apply in_or_app. auto.
Qed.

Lemma right_below_tot : forall k fuel id L v R s, length R <= k -> Fuel (3 + k) fuel -> TK D (L ++ ni_pid id :: v :: R) s -> sx (L ++ ni_pid id :: v :: R) -> nid_ok id ->
  In q (L ++ [ni_pid id]) -> (fst (zc (ni_pid id)) < fst (zc p))%Z -> (0 <= h (ni_pid id))%Z -> (fst (zc v) < fst (zc p))%Z -> (h v < 0)%Z ->
  gd (fill_right_below_edge_event dbg points fuel edge id) s (fun _ s' => exists R', TK D (L ++ ni_pid id :: R') s' /\ sx (L ++ ni_pid id :: R') /\ length R' < length (v :: R)).
Proof.
  intros k fuel id L v R s Lk F T SX Hid IQ XI HI XV HV. apply Fuel_S in F as (f & -> & F). cbn [fill_right_below_edge_event].
  rewrite Ep. unfold nid_ok in Hid. rewrite (le_pt p (ni_pid id) pp (ni_point id) Hp Hid). destruct (Z.leb_spec (fst (zc p)) (fst (zc (ni_pid id)))); [lia|].
  apply gd_front. pose proof (tk_C _ _ _ _ T) as C. destruct (get_id points PP (s_front s) C id L _ Hid (tk_vs _ _ _ _ T)) as (node & E0 & R0).
  eapply gd_lift; [exact E0|]. eapply gd_lift; [reflexivity|]. destruct (ref_next _ _ _ _ _ R0) as (next & E1 & RX). rewrite E1. eapply gd_lift; [reflexivity|].
  assert (T1 : TK D ((L ++ [ni_pid id]) ++ v :: R) s) by (rewrite <- app_assoc; exact T).
  destruct R as [|w R]; [exfalso; eapply not_last; [exact T1|exact XV]|].
  destruct (ref_next _ _ _ _ _ RX) as (nn & E2 & RN). rewrite E2. eapply gd_lift; [reflexivity|].
  destruct (ref_pid points _ C _ _ _ _ R0) as (_ & Hi & _). destruct (ref_pid points _ C _ _ _ _ RX) as (_ & Hv & _). destruct (ref_pid points _ C _ _ _ _ RN) as (_ & Hw & _).
  destruct (tk_split points D _ s _ _ _ T eq_refl) as (_ & _ & _ & Y2). destruct (tk_split points D _ s _ _ _ T1 eq_refl) as (_ & _ & _ & Y3).
  destruct (orient_ccw dbg points PP (ni_pid id) v w _ _ _ Hi Hv Hw) as (o2 & E4 & B4 & _); [intro Z0; apply Y2; rewrite Z0; simpl; auto|intro Z0; apply Y3; rewrite Z0; simpl; auto|intro Z0; apply Y2; rewrite Z0; simpl; auto|].
  cbn [length] in Lk. eapply gd_lift; [exact E4|]. destruct (is_ccw o2).
  - eapply gd_mono; [apply (right_concave_tot k f id L v w R s); auto; [lia|eapply Fuel_down; [exact F|lia]|intros _; apply B4; reflexivity]|]. intros _ s' (R' & G1 & G2 & G3 & _). exists R'. split; auto.
  - assert (B6 : (orient (zc (ni_pid id)) (zc v) (zc w) <= 0)%Z) by (destruct (Z_lt_le_dec 0 (orient (zc (ni_pid id)) (zc v) (zc w))) as [Z0|Z0]; auto; apply B4 in Z0; discriminate).
    assert (NT : ~ tame points Ed).
    { intro TM. assert (X1 : (fst (zc (ni_pid id)) < fst (zc v))%Z) by (apply (sx_lt D _ s _ _ T SX); [rewrite in_app_iff; simpl; tauto|rewrite in_app_iff; simpl; tauto|apply (tk_x3 points _ _ _ _ _ _ _ T)]).
      assert (X2 : (fst (zc v) < fst (zc w))%Z) by (apply (sx_lt D _ s _ _ T SX); [rewrite in_app_iff; simpl; tauto|rewrite in_app_iff; simpl; tauto|apply (tk_x3 points _ _ _ _ _ _ _ T)]).
      pose proof (ht_down (zc q) (zc p) QP _ _ _ X1 X2 B6 ltac:(lia)) as HW.
      assert (Wp : w <> p) by (intro Z0; assert (Z1 : h p = 0%Z) by (unfold ht; zpts; ring); rewrite Z0 in HW; lia).
      assert (S1 : sx ((L ++ [ni_pid id]) ++ v :: w :: R)) by (rewrite <- app_assoc; exact SX).
      assert (XW : (fst (zc w) < fst (zc p))%Z) by (destruct (next_right D (L ++ [ni_pid id]) v w R s q p T1 S1 HD Wp QP XV HV); [auto|lia]).
      assert (XQ : (fst (zc q) <= fst (zc (ni_pid id)))%Z).
      { apply in_app_or in IQ as [IQ|[<-|[]]]; [|lia]. destruct (tk_split points D _ s _ _ _ T eq_refl) as (Y & _). specialize (Y q IQ). unfold xlt in Y. lia. }
      assert (IN : forall y, y < N -> (fst (zc q) <= fst (zc y))%Z -> (fst (zc y) < fst (zc p))%Z -> y < ps_head points).
      { intros y Ly Y1 Y2'. pose proof (pr_head points PP). pose proof (pr_tail points PP). destruct (pr_frame points PP p Lp) as (F1 & _). destruct (pr_frame points PP q Lq) as (F2 & _).
        assert (CA : y < ps_head points \/ y = ps_head points \/ y = ps_tail points) by lia. destruct CA as [CA|[CA|CA]]; auto; rewrite CA in *; lia. }
      assert (O : (0 < orient (zc (ni_pid id)) (zc v) (zc w))%Z); [|lia].
      apply (tm_cup _ _ TM p q); auto; try (apply IN; [eapply nth_error_lt; eauto|lia|lia]).
      - destruct (Z_lt_le_dec 0 (orient (zc q) (zc (ni_pid id)) (zc p))) as [Z0|Z0]; auto. apply below_right in Z0. lia.
      - apply below_right. exact HV.
      - apply below_right. lia. }
    apply gd_bind; [grow_go|]. eapply gd_mono; [apply (right_convex_bad NT k f id L v w R s); auto; lia|]. intros ? ? [].
Qed.

Lemma right_above_tot : forall k fuel id L R s, length R <= k -> Fuel (4 + k) fuel -> TK D (L ++ ni_pid id :: R) s -> sx (L ++ ni_pid id :: R) -> nid_ok id ->
  In q (L ++ [ni_pid id]) -> (fst (zc (ni_pid id)) < fst (zc p))%Z -> (0 <= h (ni_pid id))%Z -> (forall v, In v L -> xlt (zc q) (zc v) -> (0 <= h v)%Z) ->
  gd (fill_right_above_edge_event dbg points fuel edge id) s (fun _ s' => exists vs', TK D vs' s' /\ sx vs' /\ In q vs' /\
     forall v, In v vs' -> xlt (zc q) (zc v) -> (fst (zc v) < fst (zc p))%Z -> (0 <= h v)%Z).
Proof.
  induction k as [|k IH]; intros fuel id L R s Lk F T SX Hid IQ XI HI HL; apply Fuel_S in F as (f & -> & F); cbn [fill_right_above_edge_event]; apply gd_front;
    pose proof (tk_C _ _ _ _ T) as C; pose proof (next_id points PP (s_front s) C id L _ Hid (tk_vs _ _ _ _ T)) as NX;
    (assert (DONE : (forall v, In v R -> (fst (zc p) <= fst (zc v))%Z) -> exists vs', TK D vs' s /\ sx vs' /\ In q vs' /\
        forall v, In v vs' -> xlt (zc q) (zc v) -> (fst (zc v) < fst (zc p))%Z -> (0 <= h v)%Z)
      by (intro HR; exists (L ++ ni_pid id :: R); split; auto; split; auto; split;
          [apply in_app_or in IQ as [IQ|[IQ|[]]]; apply in_or_app; simpl; auto|];
          intros v Hv X1 X2; apply in_app_or in Hv as [Hv|[Hv|Hv]]; [auto|rewrite <- Hv; auto|specialize (HR v Hv); lia]));
    (destruct R as [|w R]; [eapply gd_lift; [exact NX|]; apply gd_skip; apply DONE; intros ? []|]); cbn [length] in Lk; [lia|].
  destruct NX as (next & E1 & RX). eapply gd_lift; [exact E1|]. destruct (ref_pid points _ C _ _ _ _ RX) as (_ & Hw & Q1 & Q2).
  rewrite Ep. rewrite (le_pt p w pp (nr_point next) Hp Hw). rewrite <- Ep.
  assert (T1 : TK D ((L ++ [ni_pid id]) ++ w :: R) s) by (rewrite <- app_assoc; exact T).
  destruct (Z.leb_spec (fst (zc p)) (fst (zc w))) as [XW|XW].
  - apply gd_skip. apply DONE. destruct (tk_split points D _ s _ _ _ T1 eq_refl) as (_ & Y & _). intros v [<-|Hv]; auto. specialize (Y v Hv). unfold xlt in Y. lia.
  - assert (Wp : w <> p) by (intro Z0; rewrite Z0 in XW; lia). assert (Wq : w <> q) by (eapply ne_after; [exact T|exact IQ|simpl; auto]).
    destruct (below_test w _ Hw Wq Wp) as (o & E5 & B5). eapply gd_lift; [exact E5|]. destruct (is_ccw o).
    + apply gd_bind; [grow_go|]. eapply gd_mono; [apply (right_below_tot k f id L w R s); auto; [lia|eapply Fuel_down; [exact F|lia]|apply B5; auto]|].
      intros _ s' (R' & T' & SX' & LR). cbn [length] in LR. apply (IH f id L R' s'); auto. lia.
    + apply (IH f (get_node_id next) (L ++ [ni_pid id]) R s); rewrite ?Q2; auto; [lia|rewrite <- app_assoc; exact SX|apply in_or_app; auto| |].
      * destruct (Z_lt_le_dec (h w) 0) as [Z0|Z0]; auto. apply B5 in Z0. discriminate.
      * intros v Hv X. apply in_app_or in Hv as [Hv|[<-|[]]]; auto.
Qed.
End Right.

(** ** edges that lean to the left *)
Section Left.
Variables (q p : nat) (pq pp : Point) (edge : ConstrainedEdge).
Hypothesis Hq : nth_error (ps_points points) q = Some pq.
Hypothesis Hp : nth_error (ps_points points) p = Some pp.
Hypothesis Eq : ce_q edge = pq.
Hypothesis Ep : ce_p edge = pp.
Hypothesis Ei : p_id edge = p.
Hypothesis Lp : p < ps_head points.
Hypothesis QP : (fst (zc p) < fst (zc q))%Z.
Variable D : list nat.
Hypothesis HD : In p D.
Notation h v := (ht (zc p) (zc q) (zc v)).
Lemma p_ne_q : q <> p. Proof. intros ->. lia. Qed.
Lemma below_test_l w pw : nth_error (ps_points points) w = Some pw -> w <> q -> w <> p ->
  exists o, orient_2d dbg (ce_q edge) pw (ce_p edge) = Done o /\ (is_cw o = true <-> (h w < 0)%Z).
Proof.
  intros Hw N1 N2. pose proof p_ne_q. rewrite Eq, Ep. destruct (orient_ccw dbg points PP q w p pq pw pp Hq Hw Hp) as (o & H1 & _ & H2); auto. exists o. split; auto.
  rewrite H2. unfold ht. rewrite (orient_rot' (zc p) (zc q) (zc w)) || rewrite <- (orient_rot (zc p) (zc q) (zc w)). reflexivity.
Qed.
Lemma ne_before L id R s w : TK D (L ++ id :: R) s -> In q (id :: R) -> In w L -> w <> q.
Proof.
  intros T IQ IW ->. destruct (tk_split points D _ s L id R T eq_refl) as (X1 & X2 & _). specialize (X1 _ IW). destruct IQ as [->|IQ]; [apply (xlt_irrefl _ X1)|].
  apply (xlt_asym _ _ X1). auto.
Qed.
Lemma not_first v R s : TK D (v :: R) s -> (fst (zc p) < fst (zc v))%Z -> False.
Proof. intros T X. apply tk_first in T. subst v. destruct (pr_frame points PP p Lp) as (F1 & _). lia. Qed.

Lemma left_concave_tot : forall k fuel id L t u R s, length L <= k -> Fuel (S k) fuel -> TK D (L ++ t :: u :: ni_pid id :: R) s -> sx (L ++ t :: u :: ni_pid id :: R) -> nid_ok id ->
  In q (ni_pid id :: R) -> (fst (zc p) < fst (zc u))%Z -> (h u < 0)%Z -> (tame points Ed -> (0 < orient (zc t) (zc u) (zc (ni_pid id)))%Z) ->
  gd (fill_left_concave_edge_event dbg points fuel edge id) s (fun _ s' => exists L', TK D (L' ++ ni_pid id :: R) s' /\ sx (L' ++ ni_pid id :: R) /\ length L' <= length L + 1).
Proof.
  induction k as [|k IH]; intros fuel id L t u R s Lk F T SX Hid IQ XU HU TMH; apply Fuel_S in F as (f & -> & F); cbn [fill_left_concave_edge_event]; apply gd_front;
    pose proof (tk_C _ _ _ _ T) as C;
    (assert (T1 : TK D (((L ++ [t]) ++ [u]) ++ ni_pid id :: R) s) by (rewrite <- !app_assoc; exact T));
    destruct (tk_split points D _ s _ _ _ T1 eq_refl) as (ZL & ZR & _ & _);
    destruct (prev_id points PP (s_front s) C id ((L ++ [t]) ++ [u]) (ni_pid id :: R) Hid (tk_vs _ _ _ _ T1) ZL) as [_ NP];
    try (intros x [<-|Hx]; [apply xlt_irrefl|intro Z0; apply (xlt_asym _ _ Z0); auto]);
    destruct (NP _ _ eq_refl) as (prev & E1 & RP);
    (eapply gd_lift; [exact E1|]); (eapply gd_lift; [reflexivity|]); cbv zeta; destruct (ref_pid points _ C _ _ _ _ RP) as (_ & _ & Q1 & Q2);
    (apply gd_bind; [grow_go|]); (eapply gd_mono; [apply (fill_one_tot dbg points PP D f (get_node_id prev) L t (ni_pid id) R s (Fuel_enough _ _ _ F)); [rewrite Q2; exact T|exact Q1|rewrite Q2; exact TMH]|]);
    intros r s' (fo & -> & H1 & H2 & H3 & H4 & T' & CC); cbv beta iota; rewrite H2, Ei;
    (assert (T1' : TK D ((L ++ [t]) ++ ni_pid id :: R) s') by (rewrite <- app_assoc; exact T'));
    (assert (DONE : exists L', TK D (L' ++ ni_pid id :: R) s' /\ sx (L' ++ ni_pid id :: R) /\ length L' <= length L + 1)
      by (exists (L ++ [t]); split; auto; split; [eapply sx_incl; [exact SX|]; intros y; rewrite !in_app_iff; simpl; tauto|rewrite app_length; simpl; lia]));
    (destruct (Nat.eqb_spec t p) as [Wp|Wp]; cbn [negb]; [apply gd_skip; exact DONE|]);
    (assert (Ht : nth_error (ps_points points) t = Some (ni_point (fo_prev fo))) by (rewrite <- H2; exact H1));
    (assert (Wq : t <> q) by (eapply ne_before; [exact T1'|exact IQ|apply in_or_app; simpl; auto]));
    destruct (below_test_l t _ Ht Wq Wp) as (o & E2 & B2); (eapply gd_lift; [exact E2|]);
    (destruct (is_cw o); [|apply gd_skip; exact DONE]); pose proof (proj1 B2 eq_refl) as Eo; apply gd_front;
    (assert (Lt' : t < N) by (apply (tk_range points _ _ _ T); apply in_or_app; simpl; auto));
    (assert (Lp' : p < N) by (pose proof (pr_head points PP); lia));
    (assert (XT : (fst (zc p) < fst (zc t))%Z) by (destruct (next_left D L t u _ s q p T HD Wp Lt' Lp' QP XU HU); [auto|lia]));
    (destruct (app_cases L) as [->|(L2 & x & ->)]; [exfalso; eapply not_first; [exact T'|exact XT]|]); rewrite app_length in Lk; cbn [length] in Lk; [lia|].
  pose proof (tk_C _ _ _ _ T') as C'. assert (T2 : TK D ((L2 ++ [x]) ++ ni_pid (fo_prev fo) :: ni_pid id :: R) s') by (rewrite H2; exact T').
  destruct (get_id points PP (s_front s') C' (fo_prev fo) (L2 ++ [x]) _ H1 (tk_vs _ _ _ _ T2)) as (pn & E3 & RN).
  eapply gd_lift; [exact E3|]. eapply gd_lift; [reflexivity|]. destruct (ref_prev _ _ _ _ _ RN L2 x eq_refl) as (pp' & E3' & RN').
  eapply gd_lift; [exact E3'|]. eapply gd_lift; [reflexivity|]. destruct (ref_pid points _ C' _ _ _ _ RN) as (_ & Ht' & _). destruct (ref_pid points _ C' _ _ _ _ RN') as (_ & Hx & _).
  rewrite H2 in Ht'. rewrite H2 in T2. rewrite <- app_assoc in T2. cbn [app] in T2.
  destruct (tk_split points D _ s' L2 x _ T2 eq_refl) as (_ & _ & _ & Y2). destruct (tk_split points D _ s' _ _ _ T' eq_refl) as (_ & _ & _ & Y3).
  destruct (orient_ccw dbg points PP (ni_pid id) t x _ _ _ Hid Ht' Hx) as (o2 & E4 & _ & B4); [intro Z0; apply Y3; rewrite Z0; simpl; auto|intro Z0; apply Y2; rewrite Z0; simpl; auto|intro Z0; apply Y2; rewrite Z0; simpl; auto|].
  eapply gd_lift; [exact E4|]. destruct (is_cw o2); [|apply gd_skip; exact DONE].
  eapply gd_mono; [apply (IH f id L2 x t R s'); auto; [lia|eapply sx_incl; [exact SX|]; intros y; rewrite !in_app_iff; simpl; tauto|]|]. { intros _. pose proof (proj1 B4 eq_refl) as Z0. assert (QX : orient (zc (ni_pid id)) (zc t) (zc x) = (- orient (zc x) (zc t) (zc (ni_pid id)))%Z) by (zpts; ring). lia. }
  intros _ s2 (L' & G1 & G1' & G2). exists L'. split; auto. split; auto. rewrite app_length. simpl. lia.
Qed.

Lemma left_convex_tot : forall k fuel id L t u R s, length L <= k -> Fuel (S (S k)) fuel -> TK D (L ++ t :: u :: ni_pid id :: R) s -> sx (L ++ t :: u :: ni_pid id :: R) -> nid_ok id ->
  In q (ni_pid id :: R) -> (fst (zc p) < fst (zc u))%Z -> (h u < 0)%Z -> (h u < h (ni_pid id))%Z -> (orient (zc t) (zc u) (zc (ni_pid id)) <= 0)%Z ->
  gd (fill_left_convex_edge_event dbg points fuel edge id) s (fun r s' => exists L', r = Some tt /\ TK D (L' ++ u :: ni_pid id :: R) s' /\ sx (L' ++ u :: ni_pid id :: R) /\ length L' < length L + 1).
Proof.
  induction k as [|k IH]; intros fuel id L t u R s Lk F T SX Hid IQ XU HU HI CX; apply Fuel_S in F as (f & -> & F); cbn [fill_left_convex_edge_event]; apply gd_front;
    pose proof (tk_C _ _ _ _ T) as C;
    (assert (T1 : TK D (((L ++ [t]) ++ [u]) ++ ni_pid id :: R) s) by (rewrite <- !app_assoc; exact T));
    destruct (tk_split points D _ s _ _ _ T1 eq_refl) as (ZL & ZR & _ & _);
    destruct (prev_id points PP (s_front s) C id ((L ++ [t]) ++ [u]) (ni_pid id :: R) Hid (tk_vs _ _ _ _ T1) ZL) as [_ NP];
    try (intros x [<-|Hx]; [apply xlt_irrefl|intro Z0; apply (xlt_asym _ _ Z0); auto]);
    destruct (NP _ _ eq_refl) as (prev & E1 & RP);
    (eapply gd_lift; [exact E1|]); (eapply gd_lift; [reflexivity|]);
    destruct (ref_prev _ _ _ _ _ RP _ _ eq_refl) as (pp' & E2 & RPP); (eapply gd_lift; [exact E2|]); (eapply gd_lift; [reflexivity|]);
    (assert (T2 : TK D ((L ++ [t]) ++ u :: ni_pid id :: R) s) by (rewrite <- !app_assoc; exact T));
    (assert (X1 : (fst (zc t) < fst (zc u))%Z) by (apply (sx_lt D _ s _ _ T SX); [rewrite in_app_iff; simpl; tauto|rewrite in_app_iff; simpl; tauto|apply (tk_split points D _ s L _ _ T eq_refl); simpl; auto]));
    (assert (X2 : (fst (zc u) < fst (zc (ni_pid id)))%Z) by (apply (sx_lt D _ s _ _ T SX); [rewrite in_app_iff; simpl; tauto|rewrite in_app_iff; simpl; tauto|apply (tk_split points D _ s _ _ _ T2 eq_refl); simpl; auto]));
    pose proof (ht_down_l (zc p) (zc q) QP _ _ _ X1 X2 CX HI) as HT;
    (assert (Wp : t <> p) by (intro Z0; assert (Z1 : h p = 0%Z) by (unfold ht; zpts; ring); rewrite Z0 in HT; lia));
    (assert (Wq : t <> q) by (eapply ne_before; [exact T1|exact IQ|rewrite !in_app_iff; simpl; auto]));
    (assert (Lt' : t < N) by (apply (tk_range points _ _ _ T); apply in_or_app; simpl; auto));
    (assert (Lp' : p < N) by (pose proof (pr_head points PP); lia));
    (assert (XT : (fst (zc p) < fst (zc t))%Z) by (destruct (next_left D L t u _ s q p T HD Wp Lt' Lp' QP XU HU); [auto|lia]));
    (destruct (app_cases L) as [->|(L2 & x & ->)]; [exfalso; eapply not_first; [exact T|exact XT]|]); rewrite app_length in Lk; cbn [length] in Lk; [lia|].
  destruct (ref_prev _ _ _ _ _ RPP _ _ eq_refl) as (ppp & E3 & RPPP). eapply gd_lift; [exact E3|]. cbv beta iota.
  destruct (ref_pid points _ C _ _ _ _ RP) as (_ & Hu & Q1 & Q2). destruct (ref_pid points _ C _ _ _ _ RPP) as (_ & Ht & _). destruct (ref_pid points _ C _ _ _ _ RPPP) as (_ & Hx & _).
  assert (T3 : TK D (L2 ++ x :: t :: u :: ni_pid id :: R) s) by (rewrite <- app_assoc in T; exact T).
  assert (S3 : sx (L2 ++ x :: t :: u :: ni_pid id :: R)) by (rewrite <- app_assoc in SX; exact SX).
  destruct (tk_split points D _ s _ _ _ T3 eq_refl) as (_ & _ & _ & Y2). destruct (tk_split points D _ s _ _ _ T eq_refl) as (_ & _ & _ & Y3).
  destruct (orient_ccw dbg points PP u t x _ _ _ Hu Ht Hx) as (o2 & E4 & _ & B4); [intro Z0; apply Y3; rewrite Z0; simpl; auto|intro Z0; apply Y2; rewrite Z0; simpl; auto|intro Z0; apply Y2; rewrite Z0; simpl; auto|].
  assert (QX : orient (zc u) (zc t) (zc x) = (- orient (zc x) (zc t) (zc u))%Z) by (zpts; ring).
  rewrite QX in B4. eapply gd_lift; [exact E4|]. destruct (is_cw o2).
  - apply gd_bind; [grow_go|].
    eapply gd_mono; [apply (left_concave_tot k f (get_node_id prev) L2 x t (ni_pid id :: R) s); rewrite ?Q2; auto; [lia|eapply Fuel_down; [exact F|lia]|simpl; auto|lia|intros _; pose proof (proj1 B4 eq_refl); lia]|]. cbv beta.
    intros _ s' (L' & G1 & G1' & G2). apply gd_ret. rewrite Q2 in *. exists L'. split; auto. split; auto. split; auto. rewrite app_length. simpl. lia.
  - destruct (below_test_l t _ Ht Wq Wp) as (o & E5 & B5). eapply gd_lift; [exact E5|]. rewrite (proj2 B5 ltac:(lia)).
    assert (B6 : (orient (zc x) (zc t) (zc u) <= 0)%Z) by (destruct (Z_lt_le_dec 0 (orient (zc x) (zc t) (zc u))) as [Z0|Z0]; auto; assert (Z1 : (- orient (zc x) (zc t) (zc u) < 0)%Z) by lia; apply B4 in Z1; discriminate).
    eapply gd_mono; [apply (IH f (get_node_id prev) L2 x t (ni_pid id :: R) s); rewrite ?Q2; auto; try lia; simpl; auto|].
    intros r s' (L' & -> & G1 & G1' & G2). rewrite Q2 in *. exists (L' ++ [t]). split; auto. rewrite <- app_assoc. split; auto. split; auto. rewrite !app_length. simpl. lia.
Qed.

Lemma left_below_tot : forall k fuel id L u R s, length L <= k -> Fuel (3 + k) fuel -> TK D (L ++ u :: ni_pid id :: R) s -> sx (L ++ u :: ni_pid id :: R) -> nid_ok id ->
  In q (ni_pid id :: R) -> (fst (zc p) < fst (zc (ni_pid id)))%Z -> (0 <= h (ni_pid id))%Z -> (fst (zc p) < fst (zc u))%Z -> (h u < 0)%Z ->
  gd (fill_left_below_edge_event dbg points fuel edge id) s (fun _ s' => exists L', TK D (L' ++ ni_pid id :: R) s' /\ sx (L' ++ ni_pid id :: R) /\ length L' < length L + 1).
Proof.
  induction k as [|k IH]; intros fuel id L u R s Lk F T SX Hid IQ XI HI XU HU; apply Fuel_S in F as (f & -> & F); cbn [fill_left_below_edge_event];
    rewrite Ep; unfold nid_ok in Hid; rewrite (lt_pt p (ni_pid id) pp (ni_point id) Hp Hid), (proj2 (Z.ltb_lt _ _) XI); apply gd_front;
    pose proof (tk_C _ _ _ _ T) as C;
    (destruct (app_cases L) as [->|(L2 & t & ->)]; [exfalso; eapply not_first; [exact T|exact XU]|]); rewrite app_length in Lk; cbn [length] in Lk; [lia|].
  assert (T1 : TK D (((L2 ++ [t]) ++ [u]) ++ ni_pid id :: R) s) by (rewrite <- !app_assoc in *; exact T).
  assert (T2 : TK D (L2 ++ t :: u :: ni_pid id :: R) s) by (rewrite <- !app_assoc in *; exact T).
  destruct (tk_split points D _ s _ _ _ T1 eq_refl) as (ZL & ZR & _ & _).
  destruct (prev_id points PP (s_front s) C id ((L2 ++ [t]) ++ [u]) (ni_pid id :: R) Hid (tk_vs _ _ _ _ T1) ZL) as [_ NP].
  { intros x [<-|Hx]; [apply xlt_irrefl|intro Z0; apply (xlt_asym _ _ Z0); auto]. }
  destruct (NP _ _ eq_refl) as (prev & E1 & RP). eapply gd_lift; [exact E1|]. eapply gd_lift; [reflexivity|].
  destruct (ref_prev _ _ _ _ _ RP _ _ eq_refl) as (pp' & E2 & RPP). eapply gd_lift; [exact E2|]. eapply gd_lift; [reflexivity|].
  destruct (ref_pid points _ C _ _ _ _ RP) as (_ & Hu & Q1 & Q2). destruct (ref_pid points _ C _ _ _ _ RPP) as (_ & Ht & _).
  destruct (tk_split points D _ s _ _ _ T2 eq_refl) as (_ & _ & _ & Y2). destruct (tk_split points D _ s _ _ _ T eq_refl) as (_ & _ & _ & Y3).
  destruct (orient_ccw dbg points PP (ni_pid id) u t _ _ _ Hid Hu Ht) as (o2 & E4 & _ & B4); [intro Z0; apply Y3; rewrite Z0; simpl; auto|intro Z0; apply Y2; rewrite Z0; simpl; auto|intro Z0; apply Y2; rewrite Z0; simpl; auto|].
  assert (QX : orient (zc (ni_pid id)) (zc u) (zc t) = (- orient (zc t) (zc u) (zc (ni_pid id)))%Z) by (zpts; ring).
  rewrite QX in B4. eapply gd_lift; [exact E4|]. destruct (is_cw o2).
  - eapply gd_mono; [apply (left_concave_tot k f id L2 t u R s); auto; [lia|eapply Fuel_down; [exact F|lia]|rewrite <- !app_assoc in SX; exact SX|intros _; pose proof (proj1 B4 eq_refl); lia]|].
    intros _ s' (L' & G1 & G1' & G2). exists L'. split; auto. split; auto. rewrite app_length. simpl. lia.
  - assert (B6 : (orient (zc t) (zc u) (zc (ni_pid id)) <= 0)%Z) by (destruct (Z_lt_le_dec 0 (orient (zc t) (zc u) (zc (ni_pid id)))) as [Z0|Z0]; auto; assert (Z1 : (- orient (zc t) (zc u) (zc (ni_pid id)) < 0)%Z) by lia; apply B4 in Z1; discriminate).
    apply gd_bind; [grow_go|].
    eapply gd_mono; [apply (left_convex_tot k f id L2 t u R s); auto; try lia; [eapply Fuel_down; [exact F|lia]|rewrite <- !app_assoc in SX; exact SX]|].
    intros r s' (L' & -> & G1 & G1' & G2). cbv beta iota. rewrite app_length. cbn [length].
    eapply gd_mono; [apply (IH f id L' u R s'); auto; lia|]. intros _ s2 (L3 & G3 & G4 & G5). exists L3. split; auto. split; auto. lia.
Qed.

Lemma left_above_tot : forall k fuel id L R s, length L <= k -> Fuel (4 + k) fuel -> TK D (L ++ ni_pid id :: R) s -> sx (L ++ ni_pid id :: R) -> nid_ok id ->
  In q (ni_pid id :: R) -> (fst (zc p) < fst (zc (ni_pid id)))%Z -> (0 <= h (ni_pid id))%Z -> (forall v, In v R -> xlt (zc v) (zc q) -> (0 <= h v)%Z) ->
  gd (fill_left_above_edge_event dbg points fuel edge id) s (fun _ s' => exists vs', TK D vs' s' /\ sx vs' /\ In q vs' /\
     forall v, In v vs' -> xlt (zc v) (zc q) -> (fst (zc p) < fst (zc v))%Z -> (0 <= h v)%Z).
Proof.
  induction k as [|k IH]; intros fuel id L R s Lk F T SX Hid IQ XI HI HR; apply Fuel_S in F as (f & -> & F); cbn [fill_left_above_edge_event]; apply gd_front;
    pose proof (tk_C _ _ _ _ T) as C; 
    destruct (tk_split points D _ s _ _ _ T eq_refl) as (ZL & ZR & _ & _);
    destruct (prev_id points PP (s_front s) C id L (ni_pid id :: R) Hid (tk_vs _ _ _ _ T) ZL) as [NP0 NP];
    try (intros x [<-|Hx]; [apply xlt_irrefl|intro Z0; apply (xlt_asym _ _ Z0); auto]);
    (assert (DONE : (forall v, In v L -> (fst (zc v) <= fst (zc p))%Z) -> exists vs', TK D vs' s /\ sx vs' /\ In q vs' /\
        forall v, In v vs' -> xlt (zc v) (zc q) -> (fst (zc p) < fst (zc v))%Z -> (0 <= h v)%Z)
      by (intro HL; exists (L ++ ni_pid id :: R); split; auto; split; auto; split;
          [apply in_or_app; auto|];
          intros v Hv X1 X2; apply in_app_or in Hv as [Hv|[Hv|Hv]]; [specialize (HL v Hv); lia|rewrite <- Hv; auto|auto]));
    (destruct (app_cases L) as [->|(L2 & u & ->)]; [eapply gd_lift; [apply NP0; auto|]; apply gd_skip; apply DONE; intros ? []|]); rewrite app_length in Lk; cbn [length] in Lk; [lia|].
  destruct (NP _ _ eq_refl) as (prev & E1 & RX). eapply gd_lift; [exact E1|]. destruct (ref_pid points _ C _ _ _ _ RX) as (_ & Hu & Q1 & Q2). cbv beta iota.
  rewrite Ep. rewrite (le_pt u p (nr_point prev) pp Hu Hp). rewrite <- Ep.
  assert (T1 : TK D (L2 ++ u :: ni_pid id :: R) s) by (rewrite <- app_assoc in T; exact T).
  assert (S1 : sx (L2 ++ u :: ni_pid id :: R)) by (rewrite <- app_assoc in SX; exact SX).
  destruct (Z.leb_spec (fst (zc u)) (fst (zc p))) as [XU|XU].
  - apply gd_skip. apply DONE. destruct (tk_split points D _ s _ _ _ T1 eq_refl) as (Y & _ & _). intros v Hv. apply in_app_or in Hv as [Hv|[<-|[]]]; auto. specialize (Y v Hv). unfold xlt in Y. lia.
  - assert (Wp : u <> p) by (intro Z0; rewrite Z0 in XU; lia). assert (Wq : u <> q) by (eapply ne_before; [exact T|exact IQ|apply in_or_app; simpl; auto]).
    destruct (below_test_l u _ Hu Wq Wp) as (o & E5 & B5). eapply gd_lift; [exact E5|]. destruct (is_cw o).
    + apply gd_bind; [grow_go|]. eapply gd_mono; [apply (left_below_tot k f id L2 u R s); auto; [lia|eapply Fuel_down; [exact F|lia]|apply B5; auto]|].
      intros _ s' (L' & T' & SX' & LR). apply (IH f id L' R s'); auto. lia.
    + apply (IH f (get_node_id prev) L2 (ni_pid id :: R) s); rewrite ?Q2; auto; [lia|simpl; auto| |].
      * destruct (Z_lt_le_dec (h u) 0) as [Z0|Z0]; auto. apply B5 in Z0. discriminate.
      * intros v [<-|Hv] X; auto.
Qed.
End Left.
End S.
