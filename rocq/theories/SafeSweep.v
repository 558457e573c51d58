(** * SafeSweep: the range invariant through the sweeper *)
From Coq Require Import List Arith Bool Lia.
From Verif Require Import Base Num Shape ShapeSpec Utils Points Triangles Front Sweeper Cdt Lists Monad Safe.
Import ListNotations.

(** the unchecked accesses that can go wrong: aliasing; in builds without
    debug assertions also reading through an INVALID id in flip_edge_event and,
    unless [low], the index underflow of locate_node *)
Definition allowed (dbg : bool) (low : Prop) (f : failure) : Prop :=
  match f with
  | FPanic _ | FFuel => True
  | FUb U_alias => True
  | FUb U_flip_across => dbg = false
  | FUb U_front => dbg = false /\ ~ low
  | FUb _ => False
  end.

Section S.
Context {A : Arith}.
Variable dbg : bool.
Variable points : Points.
(** the points to be swept; [low]: the front starts with a key that is not after any of them *)
Variable pts : list Point.
Variable low : Prop.
Let KL : Point -> Prop := fun k => low -> forall p, In p pts -> key_cmp k p <> Gt.
Let N := length (ps_points points).
Let F := allowed dbg low.
Let FP : forall p, F (FPanic p) := fun _ => I.

Definition RE (m : nat) (s : Sweeper) : Prop :=
  SO N m (s_tris s) /\ FO N m KL (s_front s) /\ s_result s = [].
Definition RI (s : Sweeper) : Prop := exists m, RE m s.

(** every callback made so far was shown an in-range store and front *)
Definition cb_ok (c : callback) : Prop := exists m, SO N m (cb_tris c) /\ FO N m KL (cb_front c) /\ cb_result c = [].
Definition TR (s : Sweeper) : Prop := Forall cb_ok (s_trace s).

Definition safe {T} (Inv : Sweeper -> Prop) (m : M T) (Q : T -> Prop) : Prop :=
  forall s, Inv s -> TR s -> wp m s (fun f s' => F f /\ TR s') (fun x s' => Inv s' /\ TR s' /\ Q x).

Lemma safe_bind {T U} Inv (m : M T) (k : T -> M U) Q Q' :
  safe Inv m Q -> (forall x, Q x -> safe Inv (k x) Q') -> safe Inv (bind m k) Q'.
Proof using.
  intros H K s Hs Ht. apply wp_bind. eapply wp_mono; [apply H; auto|auto|]. intros x s' (H1 & H2 & H3). apply K; auto.
Qed.
Lemma safe_lift {T} Inv (r : res T) Q : okr r F Q -> safe Inv (lift r) Q.
Proof using. intros H s Hs Ht. apply wp_lift. eapply okr_mono; eauto. Qed.
Lemma safe_ret {T} Inv (x : T) (Q : T -> Prop) : Q x -> safe Inv (ret x) Q.
Proof using. intros H s Hs Ht. apply wp_ret. auto. Qed.
Lemma safe_skip Inv (Q : unit -> Prop) : Q tt -> safe Inv skip Q.
Proof using. intros H s Hs Ht. apply wp_skip. auto. Qed.
Lemma safe_fuel {T} Inv (Q : T -> Prop) : safe Inv fail_fuel Q.
Proof using. intros s Hs Ht. apply wp_fuel. split; [exact I|auto]. Qed.
Lemma safe_panic {T} Inv p (Q : T -> Prop) : safe Inv (panic p) Q.
Proof using. intros s Hs Ht. apply wp_panic. split; [exact I|auto]. Qed.
Lemma safe_weaken {T} Inv (m : M T) (Q Q' : T -> Prop) : safe Inv m Q -> (forall x, Q x -> Q' x) -> safe Inv m Q'.
Proof using. intros H K s Hs Ht. eapply wp_mono; [apply H; auto|auto|]. intros x s' (? & ? & ?); auto. Qed.
Lemma safe_true {T} Inv (m : M T) (Q : T -> Prop) : safe Inv m Q -> safe Inv m (fun _ => True).
Proof using. intros H. eapply safe_weaken; eauto. Qed.
Lemma safe_RI {T} (m : M T) Q : (forall k, safe (RE k) m Q) -> safe RI m Q.
Proof using. intros H s [k Hk] Ht. eapply wp_mono; [apply (H k s Hk Ht)|auto|]. intros x s' (? & ? & ?). split; [exists k|]; auto. Qed.

(** exact level *)
Section M.
Variable m : nat.
Lemma re_get_tris : safe (RE m) get_tris (SO N m).
Proof using. intros s Hs Ht. apply wp_get_tris. split; [exact Hs|]. split; [exact Ht|]. apply Hs. Qed.
Lemma re_get_front : safe (RE m) get_front (FO N m KL).
Proof using. intros s Hs Ht. apply wp_get_front. split; [exact Hs|]. split; [exact Ht|]. apply Hs. Qed.
Lemma re_put_tris ts : SO N m ts -> safe (RE m) (put_tris ts) (fun _ => True).
Proof using. intros H s (H1 & H2 & H3) Ht. apply wp_put_tris. repeat (split; auto). Qed.
Lemma re_put_front af : FO N m KL af -> safe (RE m) (put_front af) (fun _ => True).
Proof using. intros H s (H1 & H2 & H3) Ht. apply wp_put_front. split; [|auto]. split; [|split]; auto. Qed.
Lemma re_emit e : safe (RE m) (emit e) (fun _ => True).
Proof using.
  intros s (H1 & H2 & H3) Ht. apply wp_emit. split; [split; [|split]; auto|]. split; auto.
  constructor; auto. exists m. auto.
Qed.

Lemma pt_okr id : id < N -> okr (pt points id) F (fun _ => True).
Proof using. intro H. unfold pt, get_point_uncheck. apply okr_get; auto. Qed.
Lemma orient_okr a b c : okr (orient_2d dbg a b c) F (fun _ => True).
Proof using FP. unfold orient_2d. destruct dbg; simpl; auto. destruct (_ && _); simpl; auto. Qed.

Lemma V_lt t i : TO N m t -> get3 (t_points t) i < N.
Proof using. intros (H & _). apply (H i). Qed.
Lemma NB_vt t i : TO N m t -> vt m (get3 (t_neighbors t) i).
Proof using. intros (_ & H & _). apply (H i). Qed.

Lemma map_nodes_safe t t_id : TO N m t -> vt m t_id -> forall l, safe (RE m) (map_nodes_loop points l t t_id) (fun _ => True).
Proof using FP.
  intros T V l. induction l as [|i l IH]; simpl; [apply safe_skip; auto|].
  eapply (safe_bind _ _ _ (fun _ => True)); [|intros x _; exact IH].
  destruct (tid_invalid _); [|apply safe_skip; auto].
  eapply safe_bind; [apply safe_lift, (point_cw_okr F FP N m); auto|]. intros cw Hc.
  eapply safe_bind; [apply safe_lift, pt_okr; auto|]. intros p _.
  eapply safe_bind; [apply re_get_front|]. intros af Haf.
  eapply safe_bind; [apply safe_lift, (update_triangle_okr F FP N m); eauto|]. intros af' H'.
  apply re_put_front; auto.
Qed.
Lemma map_triangle_safe t_id : st m t_id -> safe (RE m) (map_triangle_to_nodes dbg points t_id) (fun _ => True).
Proof using FP.
  intro T. unfold map_triangle_to_nodes. eapply safe_bind; [apply re_get_tris|]. intros ts Hts.
  eapply safe_bind; [apply safe_lift, (ts_get_okr F dbg N m); eauto|]. intros t Ht. apply map_nodes_safe; auto.
Qed.

Lemma rotate_safe t_id p ot_id op : p < N -> op < N ->
  safe (RE m) (rotate_triangle_pair dbg t_id p ot_id op) (fun _ => st m t_id /\ st m ot_id).
Proof using FP.
  intros P OP. unfold rotate_triangle_pair. eapply safe_bind; [apply re_get_tris|]. intros ts Hts.
  eapply safe_bind; [apply safe_lift, (okr_assert _ _ F (fun _ => get_mut_two_ok ts t_id ot_id = true)); auto|]. intros u T. simpl in T. clear u.
  apply (two_ok_st N m) in T as [T1 T2]; auto.
  eapply safe_bind; [apply safe_lift, (ts_get_mut_okr F N m); eauto|]. intros t Ht.
  eapply safe_bind; [apply safe_lift, (ts_get_mut_okr F N m); eauto|]. intros ot Hot.
  eapply safe_bind; [apply safe_lift, (neighbor_ccw_okr F FP N m); auto|]. intros n1 H1.
  eapply safe_bind; [apply safe_lift, (neighbor_cw_okr F FP N m); auto|]. intros n2 H2.
  eapply safe_bind; [apply safe_lift, (neighbor_ccw_okr F FP N m); auto|]. intros n3 H3.
  eapply safe_bind; [apply safe_lift, (neighbor_cw_okr F FP N m); auto|]. intros n4 H4.
  eapply safe_bind; [apply safe_lift, (edge_attr_okr F FP)|]. intros ea1 _.
  eapply safe_bind; [apply safe_lift, (edge_attr_okr F FP)|]. intros ea2 _.
  eapply safe_bind; [apply safe_lift, (edge_attr_okr F FP)|]. intros ea3 _.
  eapply safe_bind; [apply safe_lift, (edge_attr_okr F FP)|]. intros ea4 _.
  eapply safe_bind; [apply safe_lift, (rotate_cw_okr F FP N m); eauto|]. intros t1 Ht1.
  eapply safe_bind; [apply safe_lift, (rotate_cw_okr F FP N m); eauto|]. intros ot1 Hot1.
  eapply safe_bind; [apply safe_lift, (set_edge_attr_cw_okr F FP N m); eauto|]. intros t2 Ht2.
  eapply safe_bind; [apply safe_lift, (set_edge_attr_ccw_okr F FP N m); eauto|]. intros t3 Ht3.
  eapply safe_bind; [apply safe_lift, (set_edge_attr_ccw_okr F FP N m); eauto|]. intros ot2 Hot2.
  eapply safe_bind; [apply safe_lift, (set_edge_attr_cw_okr F FP N m); eauto|]. intros ot3 Hot3.
  cbv zeta. eapply safe_bind; [apply safe_lift, (mark_two_okr F FP dbg N m); auto|]. intros [t4 ot4] [Ht4 Hot4]. simpl in Ht4, Hot4.
  assert (S0 : SO N m (ts_put (ts_put ts t_id t4) ot_id ot4)) by (apply SO_put; auto; apply SO_put; auto).
  eapply safe_bind; [apply safe_lift; eapply (six_okr F FP N m); eauto; exact I|]. intros _ _.
  assert (X : forall ts a n, SO N m ts -> st m a -> vt m n ->
    okr (if tid_invalid n then Done ts else mark_neighbor_cells dbg U_triangle_raw ts a n) F (SO N m)).
  { intros ts' a n S1 Ha Hn. destruct (tid_invalid n) eqn:E; [exact S1|]. apply mark_cells_okr; auto. apply vt_st; auto. }
  eapply safe_bind; [apply safe_lift, X; eauto|]. intros ts1 S1.
  eapply safe_bind; [apply safe_lift, X; eauto|]. intros ts2 S2.
  eapply safe_bind; [apply safe_lift, X; eauto|]. intros ts3 S3.
  eapply safe_bind; [apply safe_lift, X; eauto|]. intros ts4 S4.
  eapply safe_bind; [apply re_put_tris; auto|]. intros _ _. apply safe_ret. auto.
Qed.

Lemma set_delaunay_safe t_id ot_id : safe (RE m) (set_delaunay_pair t_id ot_id) (fun _ => True).
Proof using FP.
  unfold set_delaunay_pair. eapply safe_bind; [apply re_get_tris|]. intros ts Hts.
  eapply safe_bind; [apply safe_lift, (okr_assert _ _ F (fun _ => get_mut_two_ok ts t_id ot_id = true)); auto|]. intros u T. simpl in T. clear u.
  apply (two_ok_st N m) in T as [T1 T2]; auto.
  eapply safe_bind; [apply safe_lift, (ts_get_mut_okr F N m); eauto|]. intros t Ht.
  eapply safe_bind; [apply safe_lift, (ts_get_mut_okr F N m); eauto|]. intros ot Hot.
  eapply safe_bind; [apply safe_lift, (okr_unwrap _ _ F (fun _ => True)); auto|]. intros [i j] _.
  apply re_put_tris. apply SO_put; auto. apply SO_put; auto.
Qed.

Lemma legalize_edges_safe t_id : st m t_id -> forall l, safe (RE m) (legalize_edges dbg points l t_id)
  (fun r => match r with Some (ot, _) => st m ot | None => True end).
Proof using FP.
  intro T. induction l as [|i l IH]; simpl; [apply safe_ret; auto|].
  eapply safe_bind; [apply re_get_tris|]. intros ts Hts.
  eapply safe_bind; [apply safe_lift, (ts_get_okr F dbg N m); eauto|]. intros t Ht.
  destruct (_ || _); auto. cbv zeta.
  destruct (tid_invalid _) eqn:E; auto.
  assert (OT : st m (get3 (t_neighbors t) i)) by (apply vt_st; auto; apply NB_vt; auto).
  eapply safe_bind; [apply safe_lift, (ts_get_okr F dbg N m); eauto|]. intros ot Hot.
  pose proof (V_lt t i Ht) as Hp.
  eapply safe_bind; [apply safe_lift, (opposite_okr F FP N m); eauto|]. intros op Hop.
  eapply safe_bind; [apply safe_lift, pt_okr; auto|]. intros pa _.
  eapply safe_bind; [apply safe_lift, (point_ccw_okr F FP N m); auto|]. intros ccw Hccw.
  eapply safe_bind; [apply safe_lift, pt_okr; auto|]. intros pb _.
  eapply safe_bind; [apply safe_lift, (point_cw_okr F FP N m); auto|]. intros cw Hcw.
  eapply safe_bind; [apply safe_lift, pt_okr; auto|]. intros pc _.
  eapply safe_bind; [apply safe_lift, pt_okr; auto|]. intros pd _.
  destruct (in_circle pa pb pc pd); auto.
  eapply safe_bind; [apply re_emit|]. intros _ _.
  eapply safe_bind; [apply rotate_safe; auto|]. intros b _.
  eapply safe_bind; [apply set_delaunay_safe|]. intros _ _. apply safe_ret; auto.
Qed.
Lemma legalize_loop_safe : forall fuel q r, Forall (st m) q -> Forall (st m) r ->
  safe (RE m) (legalize_loop dbg points fuel q r) (Forall (st m)).
Proof using FP.
  induction fuel as [|f IH]; intros q r Q R; cbn [legalize_loop]; [apply safe_fuel|].
  destruct q as [|t q]; [apply safe_ret; auto|]. inversion Q; subst.
  eapply safe_bind; [apply legalize_edges_safe; auto|]. intros x Hx.
  eapply safe_bind; [apply re_emit|]. intros _ _.
  destruct x as [[ot b]|]; [|apply IH; auto].
  apply IH; [repeat constructor; auto|]. destruct b; auto. apply Forall_app. split; auto.
Qed.
Lemma map_triangles_safe : forall l, Forall (st m) l -> safe (RE m) (map_triangles dbg points l) (fun _ => True).
Proof using FP.
  induction 1 as [|t l H _ IH]; simpl; [apply safe_skip; auto|].
  eapply safe_bind; [apply map_triangle_safe; auto|]. intros _ _. exact IH.
Qed.
Lemma legalize_safe fuel t : st m t -> safe (RE m) (legalize dbg points fuel t) (fun _ => True).
Proof using FP.
  intro T. unfold legalize. eapply safe_bind; [apply re_emit|]. intros _ _.
  eapply safe_bind; [apply legalize_loop_safe; auto|]. intros l Hl.
  eapply safe_bind; [apply map_triangles_safe; auto|]. intros _ _. apply re_emit.
Qed.
Lemma legalize_all_safe fuel : forall l, Forall (st m) l -> safe (RE m) (legalize_all dbg points fuel l) (fun _ => True).
Proof using FP.
  induction 1 as [|t l H _ IH]; simpl; [apply safe_skip; auto|].
  eapply safe_bind; [apply legalize_safe; auto|]. intros _ _. exact IH.
Qed.

(** edges *)
Lemma try_mark_safe p q t : st m t -> safe (RE m) (try_mark_edge_for_triangle p q t) (fun _ => True).
Proof using FP.
  intro T. unfold try_mark_edge_for_triangle. eapply safe_bind; [apply re_get_tris|]. intros ts Hts.
  eapply safe_bind; [apply safe_lift, (ts_get_mut_okr F N m); eauto|]. intros tr Ht.
  destruct (edge_index tr p q) as [i|]; [|apply safe_ret; auto]. cbv zeta.
  assert (S1 : SO N m (ts_put ts t (tri_set_constrained tr i true))) by (apply SO_put; auto).
  eapply safe_bind; [apply re_put_tris; auto|]. intros _ _.
  change (t_neighbors (tri_set_constrained tr i true)) with (t_neighbors tr).
  destruct (tid_invalid _) eqn:E; [apply safe_ret; auto|].
  assert (S2 : st m (get3 (t_neighbors tr) i)) by (apply vt_st; auto; apply NB_vt; auto).
  eapply safe_bind; [apply safe_lift, (ts_get_mut_okr F N m); eauto|]. intros ot Hot.
  eapply safe_bind; [apply safe_lift, (neighbor_index_okr F FP)|]. intros j _.
  eapply safe_bind; [apply re_put_tris; apply SO_put; auto|]. intros _ _. apply safe_ret; auto.
Qed.
Lemma mark_collinear_safe t i : st m t -> safe (RE m) (mark_collinear t i) (TO N m).
Proof using FP.
  intro T. unfold mark_collinear. eapply safe_bind; [apply re_get_tris|]. intros ts Hts.
  eapply safe_bind; [apply safe_lift, (ts_get_mut_okr F N m); eauto|]. intros tr Ht. cbv zeta.
  eapply safe_bind; [apply re_put_tris; apply SO_put; auto|]. intros _ _. apply safe_ret; auto.
Qed.
Lemma mark_flipped_safe t ot p q : st m t -> st m ot -> safe (RE m) (mark_flipped t ot p q) (fun _ => True).
Proof using FP.
  intros T OT. unfold mark_flipped. eapply safe_bind; [apply re_get_tris|]. intros ts Hts.
  eapply safe_bind; [apply safe_lift, (ts_get_mut_okr F N m); eauto|]. intros tr Ht. cbv zeta.
  assert (S1 : SO N m (ts_put ts t (set_constrained_for_edge tr p q))) by (apply SO_put; auto).
  eapply safe_bind; [apply safe_lift, (ts_get_mut_okr F N m); eauto|]. intros otr Hot.
  apply re_put_tris; apply SO_put; auto.
Qed.
Lemma flip_pair_safe t p ot op : p < N -> op < N -> safe (RE m) (flip_pair dbg points t p ot op) (fun _ => st m t /\ st m ot).
Proof using FP.
  intros P OP. unfold flip_pair. eapply safe_bind; [apply rotate_safe; auto|]. intros b [T OT].
  destruct b; [|apply safe_skip; auto].
  eapply safe_bind; [apply map_triangle_safe; auto|]. intros _ _. eapply safe_weaken; [apply map_triangle_safe; auto|]. auto.
Qed.
Lemma next_flip_point_safe ep eq ot op : ep < N -> eq < N -> op < N -> st m ot ->
  safe (RE m) (next_flip_point dbg points ep eq ot op) (fun q => q < N).
Proof using FP.
  intros. unfold next_flip_point.
  eapply safe_bind; [apply safe_lift, pt_okr; auto|]. intros pa _.
  eapply safe_bind; [apply safe_lift, pt_okr; auto|]. intros pb _.
  eapply safe_bind; [apply safe_lift, pt_okr; auto|]. intros pc _.
  eapply safe_bind; [apply safe_lift, orient_okr|]. intros o _.
  eapply safe_bind; [apply re_get_tris|]. intros ts Hts.
  eapply safe_bind; [apply safe_lift, (ts_get_okr F dbg N m); eauto|]. intros t Ht.
  destruct o; [apply safe_lift, (point_ccw_okr F FP N m); auto|apply safe_lift, (point_cw_okr F FP N m); auto|apply safe_panic].
Qed.
Lemma with_q_okr ce q : q < N -> okr (with_q points ce q) F (fun _ => True).
Proof using. intro H. unfold with_q. apply okr_bind. okr_use pt_okr; auto. Qed.

Lemma flip_across_okr ts id : SO N m ts -> vt m id ->
  okr (ts_get_unchecked_at dbg U_flip_across ts id) F (fun t => TO N m t /\ st m id).
Proof using.
  intros S H. destruct id as [i|].
  - simpl in *. apply okr_get; [destruct S; lia|]. intros. split; auto. eapply SO_nth; eauto.
  - unfold F, allowed; simpl. destruct dbg; simpl; auto.
Qed.

Lemma edge_process_safe : forall fuel,
  (forall ep eq ce t p q, ep < N -> eq < N -> p < N -> vt m t -> Forall (st m) q ->
     safe (RE m) (edge_event_process dbg points fuel ep eq ce t p q) (Forall (st m))) /\
  (forall ep eq ce t p q, ep < N -> eq < N -> p < N -> st m t -> Forall (st m) q ->
     safe (RE m) (flip_edge_event dbg points fuel ep eq ce t p q) (Forall (st m))) /\
  (forall ep eq ce ft t p q, ep < N -> eq < N -> p < N -> st m ft -> st m t -> Forall (st m) q ->
     safe (RE m) (flip_scan_edge_event dbg points fuel ep eq ce ft t p q) (Forall (st m))).
Proof using FP.
  induction fuel as [|f (IH1 & IH2 & IH3)]; [split; [|split]; repeat intro; apply wp_fuel; (split; [exact I|auto])|].
  split; [|split]; cbn [edge_event_process flip_edge_event flip_scan_edge_event].
  - intros ep eq ce t p q H H0 H1 H2 H3.
    eapply safe_bind; [apply safe_lift, (okr_assert _ _ F (fun _ => tid_invalid t = false)); auto; apply negb_true_iff|].
    intros u E. simpl in E. clear u. assert (T : st m t) by (apply vt_st; auto).
    eapply safe_bind; [apply try_mark_safe; auto|]. intros b _. destruct b; [apply safe_ret; auto|].
    eapply safe_bind; [apply re_get_tris|]. intros ts Hts.
    eapply safe_bind; [apply safe_lift, (ts_get_mut_okr F N m); eauto|]. intros tr Ht.
    eapply safe_bind; [apply safe_lift, (point_ccw_okr F FP N m); auto|]. intros p1 Hp1.
    eapply safe_bind; [apply safe_lift, pt_okr; auto|]. intros peq _.
    eapply safe_bind; [apply safe_lift, pt_okr; auto|]. intros pp1 _.
    eapply safe_bind; [apply safe_lift, pt_okr; auto|]. intros pep _.
    eapply safe_bind; [apply safe_lift, orient_okr|]. intros o1 _.
    destruct (is_collinear o1).
    + destruct (edge_index tr eq p1); [|apply safe_panic].
      eapply safe_bind; [apply mark_collinear_safe; auto|]. intros t' Ht'.
      eapply safe_bind; [apply safe_lift, (neighbor_across_okr F FP N m); eauto|]. intros ac Hac.
      eapply safe_bind; [apply safe_lift, with_q_okr; auto|]. intros ce' _. apply IH1; auto.
    + eapply safe_bind; [apply safe_lift, (point_cw_okr F FP N m); auto|]. intros p2 Hp2.
      eapply safe_bind; [apply safe_lift, pt_okr; auto|]. intros pp2 _.
      eapply safe_bind; [apply safe_lift, orient_okr|]. intros o2 _.
      destruct (is_collinear o2).
      * destruct (edge_index tr eq p2); [|apply safe_panic].
        eapply safe_bind; [apply mark_collinear_safe; auto|]. intros t' Ht'.
        eapply safe_bind; [apply safe_lift, (neighbor_across_okr F FP N m); eauto|]. intros ac Hac.
        eapply safe_bind; [apply safe_lift, with_q_okr; auto|]. intros ce' _. apply IH1; auto.
      * destruct (orientation_eqb o1 o2); [|apply IH2; auto].
        eapply (safe_bind _ _ _ (vt m)).
        { apply safe_lift. destruct (is_cw o1); [apply (neighbor_ccw_okr F FP N m)|apply (neighbor_cw_okr F FP N m)]; auto. }
        intros t' Ht'. apply IH1; auto.
  - intros ep eq ce t p q H H0 H1 H2 H3.
    eapply safe_bind; [apply re_get_tris|]. intros ts Hts.
    eapply safe_bind; [apply safe_lift, (ts_get_okr F dbg N m); eauto|]. intros tr Ht.
    eapply safe_bind; [apply safe_lift, (neighbor_across_okr F FP N m); eauto|]. intros ot Hot.
    eapply safe_bind; [apply safe_lift, flip_across_okr; eauto|]. intros otr [Hotr OT].
    eapply safe_bind; [apply safe_lift, (opposite_okr F FP N m); eauto|]. intros op Hop.
    eapply safe_bind; [apply safe_lift, pt_okr; auto|]. intros pp _.
    eapply safe_bind; [apply safe_lift, (point_ccw_okr F FP N m); auto|]. intros ccw Hccw.
    eapply safe_bind; [apply safe_lift, pt_okr; auto|]. intros pb _.
    eapply safe_bind; [apply safe_lift, (point_cw_okr F FP N m); auto|]. intros cw Hcw.
    eapply safe_bind; [apply safe_lift, pt_okr; auto|]. intros pc _.
    eapply safe_bind; [apply safe_lift, pt_okr; auto|]. intros pd _.
    assert (Q1 : Forall (st m) (q ++ [t; ot])) by (apply Forall_app; split; auto).
    destruct (in_scan_area pp pb pc pd).
    + eapply safe_bind; [apply flip_pair_safe; auto|]. intros _ _. cbv zeta.
      destruct (_ && _).
      * destruct (_ && _); [|apply safe_ret; auto].
        eapply safe_bind; [apply mark_flipped_safe; auto|]. intros _ _. apply safe_ret; auto.
      * eapply safe_bind; [apply safe_lift, pt_okr; auto|]. intros peq _.
        eapply safe_bind; [apply safe_lift, pt_okr; auto|]. intros pop _.
        eapply safe_bind; [apply safe_lift, pt_okr; auto|]. intros pep _.
        eapply safe_bind; [apply safe_lift, orient_okr|]. intros o _.
        unfold next_flip_triangle. destruct (is_ccw o); apply IH2; auto; apply Forall_app; split; auto.
    + eapply safe_bind; [apply next_flip_point_safe; auto|]. intros np Hnp.
      eapply safe_bind; [apply IH3; auto|]. intros q' Hq'. apply IH1; auto.
  - intros ep eq ce ft t p q H H0 H1 H2 H3 H4.
    eapply safe_bind; [apply re_get_tris|]. intros ts Hts.
    eapply safe_bind; [apply safe_lift, (ts_get_okr F dbg N m); eauto|]. intros tr Ht.
    eapply safe_bind; [apply safe_lift, (neighbor_across_okr F FP N m); eauto|]. intros ot Hot.
    destruct (tid_invalid ot) eqn:E; [apply safe_panic|]. assert (OT : st m ot) by (apply vt_st; auto).
    eapply safe_bind; [apply safe_lift, (ts_get_okr F dbg N m); eauto|]. intros otr Hotr.
    eapply safe_bind; [apply safe_lift, (opposite_okr F FP N m); eauto|]. intros op Hop.
    eapply safe_bind; [apply safe_lift, (ts_get_okr F dbg N m); eauto|]. intros ftr Hft.
    eapply safe_bind; [apply safe_lift, (point_ccw_okr F FP N m); auto|]. intros p1 Hp1.
    eapply safe_bind; [apply safe_lift, (point_cw_okr F FP N m); auto|]. intros p2 Hp2.
    eapply safe_bind; [apply safe_lift, pt_okr; auto|]. intros peq _.
    eapply safe_bind; [apply safe_lift, pt_okr; auto|]. intros pp1 _.
    eapply safe_bind; [apply safe_lift, pt_okr; auto|]. intros pp2 _.
    eapply safe_bind; [apply safe_lift, pt_okr; auto|]. intros pop _.
    destruct (in_scan_area _ _ _ _); [apply IH2; auto|].
    eapply safe_bind; [apply next_flip_point_safe; auto|]. intros np Hnp. apply IH3; auto.
Qed.
Lemma node_with_cache_safe q : safe (RE m) (node_with_cache q) (fun n => vt m (nr_tri n)).
Proof using FP.
  unfold node_with_cache. eapply safe_bind; [apply re_get_front|]. intros af Haf.
  eapply safe_bind; [apply safe_lift, (get_node_cache_okr F FP N m); eauto|]. intros [o af'] [H1 H2]. simpl in H1, H2.
  eapply safe_bind; [apply re_put_front; auto|]. intros _ _.
  eapply safe_bind; [apply safe_lift, (okr_unwrap _ _ F (fun n => NV af' n)); [exact H1|auto]|]. intros n Hn.
  apply safe_ret. apply (NV_ok N m KL) in Hn; tauto.
Qed.
End M.

(** ** steps that insert a triangle *)
Definition safe2 {T} (I1 I2 : Sweeper -> Prop) (m : M T) (Q : T -> Prop) : Prop :=
  forall s, I1 s -> TR s -> wp m s (fun f s' => F f /\ TR s') (fun x s' => I2 s' /\ TR s' /\ Q x).
Lemma safe2_bind {T U} I1 I2 I3 (m : M T) (k : T -> M U) Q Q' :
  safe2 I1 I2 m Q -> (forall x, Q x -> safe2 I2 I3 (k x) Q') -> safe2 I1 I3 (bind m k) Q'.
Proof using.
  intros H K s Hs Ht. apply wp_bind. eapply wp_mono; [apply H; auto|auto|]. intros x s' (H1 & H2 & H3). apply K; auto.
Qed.
Lemma safe2_RI {T} (m : M T) Q : (forall k, safe2 (RE k) RI m Q) -> safe RI m Q.
Proof using. intros H s [k Hk] Ht. apply (H k s Hk Ht). Qed.
Lemma safe2_up {T} k (m : M T) Q : safe (RE k) m Q -> safe2 (RE k) RI m Q.
Proof using. intros H s Hs Ht. eapply wp_mono; [apply H; auto|auto|]. intros x s' (? & ? & ?). split; [exists k|]; auto. Qed.
Lemma EO_le m m' e : m <= m' -> EO N m e -> EO N m' e.
Proof using. intros L [? ?]. split; auto. eapply vt_le; eauto. Qed.
Lemma FO_le m m' af : m <= m' -> FO N m KL af -> FO N m' KL af.
Proof using. intros L (H & C & E). split; [|split]; auto. eapply Forall_impl; [|exact H]. intros e. apply EO_le; auto. Qed.
Lemma put_insert_safe m ts : SO N (S m) ts -> safe2 (RE m) (RE (S m)) (put_tris ts) (fun _ => True).
Proof using.
  intros H s (H1 & H2 & H3) Ht. apply wp_put_tris. split; [|auto]. split; [auto|]. split; auto.
  simpl. eapply FO_le; [|eauto]. lia.
Qed.

Definition ov (o : option FillOne) : Prop := True.
Lemma fill_one_safe fuel id : safe RI (fill_one dbg points fuel id) (fun _ => True).
Proof using FP.
  apply safe2_RI. intro m. unfold fill_one.
  eapply safe2_bind; [apply re_get_front|]. intros af Haf.
  eapply safe2_bind; [apply safe_lift, (get_node_id_okr F)|]. intros o Ho.
  eapply safe2_bind; [apply safe_lift, (okr_unwrap _ _ F (NV af)); auto|]. intros node Hn.
  eapply safe2_bind; [apply safe_lift, (prev_pos_okr F); auto|]. intros [prev|] [Hp Hpos]; [|apply safe2_up, safe_ret; auto].
  specialize (Hp prev eq_refl). specialize (Hpos ltac:(discriminate)).
  destruct (next_node af node) as [next|] eqn:En; [|apply safe2_up, safe_ret; auto].
  apply next_NV in En. cbv zeta.
  eapply safe2_bind; [apply re_get_tris|]. intros ts Hts. cbn [ts_insert].
  pose proof (NV_ok N m KL _ _ Haf Hn) as [N1 N2]. pose proof (NV_ok N m KL _ _ Haf Hp) as [P1 P2].
  pose proof (NV_ok N m KL _ _ Haf En) as [X1 X2].
  assert (S1 : SO N (S m) (ts ++ [tri_new (nr_pid prev) (nr_pid node) (nr_pid next)])) by (apply SO_insert; auto).
  eapply safe2_bind; [apply safe_lift, (okr_unwrap _ _ F (fun _ => True)); auto|]. intros a _.
  eapply safe2_bind; [apply safe_lift, (mark_neighbor_okr F FP dbg N (S m)); eauto|]. intros ts1 S2.
  eapply safe2_bind; [apply safe_lift, (okr_unwrap _ _ F (fun _ => True)); auto|]. intros b _.
  eapply safe2_bind; [apply safe_lift, (mark_neighbor_okr F FP dbg N (S m)); eauto|]. intros ts2 S3.
  eapply safe2_bind; [apply put_insert_safe; eauto|]. intros _ _. apply safe2_up.
  assert (V0 : st (S m) (Some (length ts))) by (simpl; destruct Hts; lia).
  eapply safe_bind; [apply safe_lift, (update_delete_okr F FP N (S m) KL); auto|]. { eapply FO_le; [|eauto]; lia. }
  intros af' Haf'. eapply safe_bind; [apply re_put_front; auto|]. intros _ _.
  eapply safe_bind; [apply legalize_safe; auto|]. intros _ _. apply safe_ret; auto.
Qed.

Definition FX (af : AdvancingFront) : Prop := exists m, FO N m KL af.
Lemma ri_get_front : safe RI get_front FX.
Proof using. intros s [m Hs] Ht. apply wp_get_front. split; [exists m; exact Hs|]. split; [exact Ht|]. exists m. apply Hs. Qed.
Lemma ri_get_tris : safe RI get_tris (fun ts => exists m, SO N m ts).
Proof using. intros s [m Hs] Ht. apply wp_get_tris. split; [exists m; exact Hs|]. split; [exact Ht|]. exists m. apply Hs. Qed.
Lemma ri_emit e : safe RI (emit e) (fun _ => True).
Proof using. apply safe_RI. intro. apply re_emit. Qed.

Lemma should_fill_okr af n : NV af n -> okr (should_fill af n) F (fun _ => True).
Proof using FP.
  intro H. unfold should_fill. apply okr_bind, okr_unwrap; auto. intros next En. apply next_NV in En.
  apply okr_bind, okr_bind. okr_use (prev_okr F); auto. intros o Ho. apply okr_unwrap; auto. intros prev ->. specialize (Ho prev eq_refl).
  cbv zeta. destruct (is_negative _); [exact I|]. destruct (negb _); [exact I|].
  set (nn := match next_node af next with Some _ => _ | None => _ end). destruct nn; [exact I|].
  apply okr_bind. okr_use (prev_okr F); auto. intros [pp|] _; [|exact I]. destruct (between_0_to_90_degree _); exact I.
Qed.
Hint Resolve fill_one_safe ri_get_front ri_emit should_fill_okr orient_okr : safe.

Ltac sf :=
  repeat (first
  [ apply safe_fuel | apply safe_panic | apply safe_skip; exact I | apply safe_ret; exact I
  | match goal with
    | |- safe RI (bind (fill_one _ _ _ _) _) _ => eapply safe_bind; [apply fill_one_safe|intros ? _]
    | |- safe RI (bind get_front _) _ => eapply safe_bind; [apply ri_get_front|intros ? ?]
    | |- safe RI (bind (lift (locate_next_node _ _)) _) _ => eapply safe_bind; [apply safe_lift, (locate_next_okr F)|intros ? ?]
    | |- safe RI (bind (lift (locate_prev_node _ _)) _) _ => eapply safe_bind; [apply safe_lift, (locate_prev_okr F)|intros ? ?]
    | |- safe RI (bind (lift (get_node_with_id _ _)) _) _ => eapply safe_bind; [apply safe_lift, (get_node_id_okr F)|intros ? ?]
    | |- safe RI (bind (lift (should_fill _ _)) _) _ => eapply safe_bind; [apply safe_lift, should_fill_okr; solve [auto]|intros ? _]
    | |- safe RI (bind (lift (orient_2d _ _ _ _)) _) _ => eapply safe_bind; [apply safe_lift, orient_okr|intros ? _]
    | |- safe RI (bind (lift (prev_node _ _)) _) _ => eapply safe_bind; [apply safe_lift, (prev_okr F); solve [auto]|intros ? ?]
    | |- safe RI (bind (lift (unwrap _ (next_node ?af ?n))) _) _ =>
        eapply safe_bind; [apply safe_lift, (okr_unwrap _ _ F (NV af)); [apply next_NV|auto]|intros ? ?]
    | H : oNV ?af ?o |- safe RI (bind (lift (unwrap _ ?o)) _) _ =>
        eapply safe_bind; [apply safe_lift, (okr_unwrap _ _ F (NV af)); [exact H|auto]|intros ? ?]
    | |- safe RI (bind (lift (unwrap _ ?o)) _) _ =>
        eapply safe_bind; [apply safe_lift, (okr_unwrap _ _ F (fun _ => True)); solve [auto]|intros ? _]
    | H : oNV ?af ?o |- safe RI (match ?o with Some _ => _ | None => _ end) _ =>
        let n := fresh "n" in destruct o as [n|]; [specialize (H n eq_refl)|clear H]
    | |- safe RI (match next_node ?af ?n with Some _ => _ | None => _ end) _ =>
        let H := fresh in let x := fresh "x" in pose proof (next_NV af n) as H; destruct (next_node af n) as [x|]; [specialize (H x eq_refl)|clear H]
    | |- safe RI (if ?b then _ else _) _ => destruct b
    end
  | solve [eauto with safe] ]; cbv zeta).

Lemma fill_right_holes_safe : forall fuel id, safe RI (fill_right_holes dbg points fuel id) (fun _ => True).
Proof using FP. induction fuel as [|f IH]; intro id; cbn [fill_right_holes]; sf. Qed.
Lemma fill_left_holes_safe : forall fuel id, safe RI (fill_left_holes dbg points fuel id) (fun _ => True).
Proof using FP. induction fuel as [|f IH]; intro id; cbn [fill_left_holes]; sf. Qed.
Lemma fill_basin_req_safe : forall fuel id b, safe RI (fill_basin_req dbg points fuel id b) (fun _ => True).
Proof using FP. induction fuel as [|f IH]; intros id b; cbn [fill_basin_req]; sf. Qed.
Lemma walk_bottom_okr af : forall fuel n, okr (walk_bottom fuel af n) F (fun _ => True).
Proof using.
  induction fuel as [|f IH]; intros n; cbn [walk_bottom]; [exact I|]. destruct (next_node af n); [|exact I].
  destruct (f_le _ _); [apply IH|exact I].
Qed.
Lemma walk_right_okr af : forall fuel n, okr (walk_right fuel af n) F (fun _ => True).
Proof using.
  induction fuel as [|f IH]; intros n; cbn [walk_right]; [exact I|]. destruct (next_node af n); [|exact I].
  destruct (f_lt _ _); [apply IH|exact I].
Qed.
Hint Resolve fill_right_holes_safe fill_left_holes_safe fill_basin_req_safe : safe.
Lemma fill_basin_safe fuel id : safe RI (fill_basin dbg points fuel id) (fun _ => True).
Proof using FP.
  unfold fill_basin. sf.
  all: eapply safe_bind; [apply safe_lift, walk_bottom_okr|intros ? _]; sf.
  all: eapply safe_bind; [apply safe_lift, walk_right_okr|intros ? _]; sf.
Qed.
Lemma basin_angle_okr af id : okr (basin_angle_satisfy af id) F (fun _ => True).
Proof using.
  unfold basin_angle_satisfy. apply okr_bind. okr_use (locate_next_okr F); auto. intros [n|] _; [|exact I].
  destruct (next_node af n); exact I.
Qed.
Lemma fill_advancing_front_safe fuel p : safe RI (fill_advancing_front dbg points fuel p) (fun _ => True).
Proof using FP.
  unfold fill_advancing_front. eapply safe_bind; [apply ri_get_front|]. intros af [m Haf].
  eapply safe_bind; [apply safe_lift, (get_node_okr F FP N m KL); auto|]. intros o Ho. sf.
  eapply safe_bind; [apply fill_right_holes_safe|]. intros _ _.
  eapply safe_bind; [apply fill_left_holes_safe|]. intros _ _. sf.
  eapply safe_bind; [apply safe_lift, basin_angle_okr|intros ? _]. sf. apply fill_basin_safe.
Qed.
Lemma insert_point_safe fuel id p : id < N -> In p pts -> safe RI (insert_point dbg points fuel id p) (fun _ => True).
Proof using FP.
  intros Hid Hpt. apply safe2_RI. intro m. unfold insert_point.
  eapply safe2_bind; [apply re_get_front|]. intros af Haf.
  eapply safe2_bind; [apply safe_lift, (locate_node_okr F FP N m KL)|]. { exact Haf. }
  { intros E (k & Kk & G). unfold F. simpl. split; auto. intro L. apply (Kk L p Hpt G). }
  intros node Hn. cbv zeta.
  eapply safe2_bind; [apply safe_lift, (okr_unwrap _ _ F (NV af)); auto; apply next_NV|]. intros next Hx.
  eapply safe2_bind; [apply re_get_tris|]. intros ts Hts. cbn [ts_insert].
  pose proof (NV_ok N m KL _ _ Haf Hn) as [N1 N2]. pose proof (NV_ok N m KL _ _ Haf Hx) as [X1 X2].
  assert (S1 : SO N (S m) (ts ++ [tri_new id (nr_pid node) (nr_pid next)])) by (apply SO_insert; auto).
  eapply safe2_bind; [apply safe_lift, (okr_unwrap _ _ F (fun _ => True)); auto|]. intros a _.
  eapply safe2_bind; [apply safe_lift, (mark_neighbor_okr F FP dbg N (S m)); eauto|]. intros ts1 S2.
  eapply safe2_bind; [apply put_insert_safe; eauto|]. intros _ _. apply safe2_up.
  assert (V0 : st (S m) (Some (length ts))) by (simpl; destruct Hts; lia).
  eapply safe_bind; [apply safe_lift, (front_insert_okr F FP N (S m) KL); auto|]. { eapply FO_le; [|eauto]; lia. }
  { intros k Kk G L. exfalso. apply (Kk L p Hpt G). }
  intros af' Haf'. eapply safe_bind; [apply re_put_front; auto|]. intros _ _.
  eapply safe_bind; [apply legalize_safe; auto|]. intros _ _. apply safe_ret; auto.
Qed.
Lemma point_event_safe fuel id p : id < N -> In p pts -> safe RI (point_event dbg points fuel id p) (fun _ => True).
Proof using FP.
  intros H Hpt. unfold point_event. eapply safe_bind; [apply insert_point_safe; auto|]. intros [node_id node_point] _.
  eapply (safe_bind _ _ _ (fun _ => True)); [sf|]. intros _ _. apply fill_advancing_front_safe.
Qed.

Lemma fill_right_concave_safe e : forall fuel id, safe RI (fill_right_concave_edge_event dbg points fuel e id) (fun _ => True).
Proof using FP. induction fuel as [|f IH]; intro id; cbn [fill_right_concave_edge_event]; sf. Qed.
Lemma fill_left_concave_safe e : forall fuel id, safe RI (fill_left_concave_edge_event dbg points fuel e id) (fun _ => True).
Proof using FP. induction fuel as [|f IH]; intro id; cbn [fill_left_concave_edge_event]; sf. Qed.
Hint Resolve fill_right_concave_safe fill_left_concave_safe : safe.
Lemma fill_right_convex_safe e : forall fuel id, safe RI (fill_right_convex_edge_event dbg points fuel e id) (fun _ => True).
Proof using FP.
  induction fuel as [|f IH]; intro id; cbn [fill_right_convex_edge_event]; sf.
  eapply safe_bind; [apply fill_right_concave_safe|intros _ _]. sf.
Qed.
Lemma fill_left_convex_safe e : forall fuel id, safe RI (fill_left_convex_edge_event dbg points fuel e id) (fun _ => True).
Proof using FP.
  induction fuel as [|f IH]; intro id; cbn [fill_left_convex_edge_event]; sf.
  eapply safe_bind; [apply fill_left_concave_safe|intros _ _]. sf.
Qed.
Hint Resolve fill_right_convex_safe fill_left_convex_safe : safe.
Lemma fill_right_below_safe e : forall fuel id, safe RI (fill_right_below_edge_event dbg points fuel e id) (fun _ => True).
Proof using FP.
  induction fuel as [|f IH]; intro id; cbn [fill_right_below_edge_event]; sf.
  eapply safe_bind; [apply fill_right_convex_safe|intros [?|] _]; sf.
Qed.
Lemma fill_left_below_safe e : forall fuel id, safe RI (fill_left_below_edge_event dbg points fuel e id) (fun _ => True).
Proof using FP.
  induction fuel as [|f IH]; intro id; cbn [fill_left_below_edge_event]; sf.
  eapply safe_bind; [apply fill_left_convex_safe|intros [?|] _]; sf.
Qed.
Lemma fill_right_above_safe e : forall fuel id, safe RI (fill_right_above_edge_event dbg points fuel e id) (fun _ => True).
Proof using FP.
  induction fuel as [|f IH]; intro id; cbn [fill_right_above_edge_event]; sf.
  eapply safe_bind; [apply fill_right_below_safe|intros _ _]. sf.
Qed.
Lemma fill_left_above_safe e : forall fuel id, safe RI (fill_left_above_edge_event dbg points fuel e id) (fun _ => True).
Proof using FP.
  induction fuel as [|f IH]; intro id; cbn [fill_left_above_edge_event]; sf.
  eapply safe_bind; [apply fill_left_below_safe|intros _ _]. sf.
Qed.
Lemma fill_edge_safe fuel e id : safe RI (fill_edge_event dbg points fuel e id) (fun _ => True).
Proof using FP. unfold fill_edge_event. destruct (ce_right e); [apply fill_right_above_safe|apply fill_left_above_safe]. Qed.

(** the two accesses through the front, each at an exact level *)
Lemma edge_event_safe fuel e q : e_p e < N -> e_q e < N -> safe RI (edge_event dbg points fuel e q) (fun _ => True).
Proof using FP.
  intros Hp Hq. unfold edge_event. eapply safe_bind; [apply safe_lift, pt_okr; auto|]. intros p _. cbv zeta.
  apply safe2_RI. intro m.
  eapply safe2_bind; [apply node_with_cache_safe|]. intros node Hn.
  eapply safe2_bind; [apply safe_lift, (okr_unwrap _ _ F (fun t => nr_tri node = Some t)); auto|]. intros t Et.
  cbv beta in Hn, Et. rewrite Et in Hn.
  eapply safe2_bind; [apply try_mark_safe; exact Hn|]. intros b _.
  destruct b; [apply safe2_up, safe_skip; auto|].
  eapply safe2_bind with (I2 := RI); [|].
  { intros s Hs Ht. apply fill_edge_safe; auto. exists m; auto. }
  intros _ _. clear m Hn. apply safe2_RI. intro m.
  eapply safe2_bind; [apply node_with_cache_safe|]. intros node2 Hn2.
  eapply safe2_bind; [apply safe_lift, (okr_unwrap _ _ F (fun t => nr_tri node2 = Some t)); auto|]. intros t2 Et2.
  cbv beta in Hn2, Et2. rewrite Et2 in Hn2. apply safe2_up.
  eapply safe_bind; [apply (proj1 (edge_process_safe m fuel)); auto|]. intros ids Hids.
  apply legalize_all_safe; auto.
Qed.
Lemma edges_loop_safe fuel q pq : q < N -> forall ps, Forall (fun p => p < N) ps ->
  safe RI (edges_loop dbg points fuel q pq ps) (fun _ => True).
Proof using FP.
  intros Hq. induction 1 as [|p ps H _ IH]; simpl; [apply safe_skip; auto|]. cbv zeta.
  eapply safe_bind; [apply edge_event_safe; auto|]. intros _ _.
  eapply safe_bind; [apply ri_emit|]. intros _ _. exact IH.
Qed.

(** the debug-only verification *)
Lemma ts_get_opt_okr m ts id : SO N m ts -> vt m id -> okr (ts_get ts id) F (fun o => forall t, o = Some t -> TO N m t).
Proof using.
  intros S V0. unfold ts_get. destruct id as [i|]; [|simpl; discriminate].
  apply okr_bind. apply okr_get; [destruct S; simpl in *; lia|]. intros x E. simpl. intros t Q; injection Q as <-. eapply SO_nth; eauto.
Qed.
Lemma is_legal_edge_okr m ts id i : SO N m ts -> st m id -> okr (is_legal_edge dbg points ts id i) F (fun _ => True).
Proof using FP.
  intros S T. unfold is_legal_edge. apply okr_bind. okr_use (ts_get_okr F dbg N m); eauto. intros t Ht. cbv zeta.
  apply okr_bind. okr_use (ts_get_opt_okr m); eauto. { apply NB_vt; auto. } intros [ot|] Ho; [|exact I]. specialize (Ho ot eq_refl).
  pose proof (V_lt m t i Ht).
  apply okr_bind. okr_use (opposite_okr F FP N m); eauto. intros op Hop.
  apply okr_bind, okr_unwrap; auto. intros oi _. destruct (tri_is_constrained _ _); [exact I|].
  apply okr_bind. okr_use pt_okr; auto. intros pa _.
  apply okr_bind. okr_use (point_ccw_okr F FP N m); eauto. intros ccw Hccw.
  apply okr_bind. okr_use pt_okr; auto. intros pb _.
  apply okr_bind. okr_use (point_cw_okr F FP N m); eauto. intros cw Hcw.
  apply okr_bind. okr_use pt_okr; auto. intros pc _.
  apply okr_bind. okr_use pt_okr; auto. 
Qed.
Lemma mapM_okr {X Y} (f : X -> res Y) l : (forall x, In x l -> okr (f x) F (fun _ => True)) -> okr (mapM f l) F (fun _ => True).
Proof using.
  induction l as [|x l IH]; simpl; intro H; [exact I|]. apply okr_bind. okr_use H; auto. intros y _.
  apply okr_bind. okr_use IH; auto.
Qed.
Lemma illegal_okr m ts : SO N m ts -> forall l, Forall (fun i => i < m) l -> okr (illegal_loop dbg points ts l) F (fun _ => True).
Proof using FP.
  intros S. induction 1 as [|i l H _ IH]; simpl; [exact I|].
  apply okr_bind. unfold is_legalize. okr_use @mapM_okr; auto. { intros x _. eapply is_legal_edge_okr; eauto. } intros y _.
  apply okr_bind. okr_use IH; auto.
Qed.
Lemma verify_okr m ts : SO N m ts -> okr (verify_triangles dbg points ts) F (fun _ => True).
Proof using FP.
  intro S. unfold verify_triangles, illegal_triangles. apply okr_bind. okr_use (illegal_okr m); eauto.
  apply Forall_forall. intros x Hx. apply in_seq in Hx. destruct S; lia.
Qed.

Definition item_ok (x : pid * Point * PointEdges) : Prop :=
  fst (fst x) < N /\ In (snd (fst x)) pts /\ Forall (fun p => p < N) (edges_list (snd x)).
Lemma sweep_loop_safe fuel : forall l, Forall item_ok l -> safe RI (sweep_loop dbg points fuel l) (fun _ => True).
Proof using FP.
  induction 1 as [|[[i p] es] l (H1 & H0 & H2) _ IH]; simpl; [apply safe_skip; auto|].
  eapply safe_bind; [apply ri_emit|]. intros _ _.
  eapply safe_bind; [apply point_event_safe; auto|]. intros _ _.
  eapply safe_bind; [apply ri_emit|]. intros _ _.
  eapply safe_bind; [apply edges_loop_safe; auto|]. intros _ _.
  eapply (safe_bind _ _ _ (fun _ => True)); [|intros _ _; exact IH].
  assert (G : safe RI (bind get_tris (fun ts => bind (lift (verify_triangles dbg points ts)) (fun ok =>
              bind (lift (rassert P_dbg_verify ok)) (fun _ => skip)))) (fun _ => True)).
  { eapply safe_bind; [apply ri_get_tris|]. intros ts [m Hts].
    eapply safe_bind; [apply safe_lift, (verify_okr m); auto|]. intros ok _.
    eapply safe_bind; [apply safe_lift, (okr_assert _ _ F (fun _ => True)); auto|]. intros _ _. apply safe_skip; auto. }
  case dbg in G |- *; [exact G|apply safe_skip; auto].
Qed.
End S.
