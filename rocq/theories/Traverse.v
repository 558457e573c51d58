(** * Traverse: what every function preserves, once its state-changing steps do

    [pres I J m]: started in a state satisfying I, [m] ends in one satisfying
    I, or fails in one satisfying J.  The sections below reduce [pres] for
    every function of the sweeper to a handful of steps: inserting a point,
    filling one node, legalizing, marking an edge, flipping across a
    constraint, and refreshing the front's cache. *)
From Coq Require Import List Arith Bool Lia.
From Verif Require Import Base Num Shape Utils Points Triangles Front Sweeper Monad.
Import ListNotations.

Section Pres.
Context {A : Arith}.
Definition pres {T} (I J : Sweeper -> Prop) (m : M T) : Prop :=
  forall s, I s -> wp m s (fun _ => J) (fun _ => I).

Context (I J : Sweeper -> Prop) (IJ : forall s, I s -> J s).
Lemma pres_ret {T} (x : T) : pres I J (ret x).
Proof using IJ. intros s H. exact H. Qed.
Lemma pres_skip : pres I J skip.
Proof using IJ. intros s H. exact H. Qed.
Lemma pres_lift {T} (r : res T) : pres I J (lift r).
Proof using IJ. intros s H. unfold wp, lift. destruct r; auto. Qed.
Lemma pres_bind {T U} (m : M T) (k : T -> M U) : pres I J m -> (forall x, pres I J (k x)) -> pres I J (bind m k).
Proof using IJ.
  intros Hm Hk s H. apply wp_bind. eapply wp_mono; [apply Hm; auto|auto|]. intros x s' H'. apply Hk; auto.
Qed.
Lemma pres_get_tris : pres I J get_tris. Proof using IJ. intros s H. exact H. Qed.
Lemma pres_get_front : pres I J get_front. Proof using IJ. intros s H. exact H. Qed.
Lemma pres_fuel {T} : pres I J (@fail_fuel A T). Proof using IJ. intros s H. apply IJ, H. Qed.
Lemma pres_panic {T} p : pres I J (@panic A T p). Proof using IJ. intros s H. apply IJ, H. Qed.
End Pres.

Ltac pres1 IJ :=
  lazymatch goal with
  | |- pres _ _ (bind _ _) => apply (pres_bind _ _ IJ); [|intros]
  | |- pres _ _ (lift _) => apply (pres_lift _ _ IJ)
  | |- pres _ _ (ret _) => apply (pres_ret _ _ IJ)
  | |- pres _ _ skip => apply (pres_skip _ _ IJ)
  | |- pres _ _ get_tris => apply (pres_get_tris _ _ IJ)
  | |- pres _ _ get_front => apply (pres_get_front _ _ IJ)
  | |- pres _ _ fail_fuel => apply (pres_fuel _ _ IJ)
  | |- pres _ _ (panic _) => apply (pres_panic _ _ IJ)
  | |- pres _ _ (if ?b then _ else _) => destruct b
  | |- pres _ _ (match ?x with _ => _ end) => destruct x
  end.
Create HintDb pres.
Ltac pres_go IJ := cbv zeta; repeat (first [ pres1 IJ | solve [eauto with pres] ]; cbv zeta).

Section Trav.
Context {A : Arith}.
Variable dbg : bool.
Variable points : Points.
Variables I J : Sweeper -> Prop.
Hypothesis IJ : forall s, I s -> J s.

(** ** The steps *)
Hypothesis H_fill : forall fuel id, pres I J (fill_one dbg points fuel id).
Hint Resolve H_fill : pres.

Lemma fill_right_holes_pres : forall fuel id, pres I J (fill_right_holes dbg points fuel id).
Proof using IJ H_fill. induction fuel as [|f IH]; intro id; simpl; pres_go IJ. Qed.
Lemma fill_left_holes_pres : forall fuel id, pres I J (fill_left_holes dbg points fuel id).
Proof using IJ H_fill. induction fuel as [|f IH]; intro id; simpl; pres_go IJ. Qed.
Lemma fill_basin_req_pres : forall fuel id b, pres I J (fill_basin_req dbg points fuel id b).
Proof using IJ H_fill. induction fuel as [|f IH]; intros id b; simpl; pres_go IJ. Qed.
Hint Resolve fill_right_holes_pres fill_left_holes_pres fill_basin_req_pres : pres.
Lemma fill_basin_pres : forall fuel id, pres I J (fill_basin dbg points fuel id).
Proof using IJ H_fill. intros. unfold fill_basin. pres_go IJ. Qed.
Hint Resolve fill_basin_pres : pres.
Lemma fill_advancing_front_pres : forall fuel p, pres I J (fill_advancing_front dbg points fuel p).
Proof using IJ H_fill. intros. unfold fill_advancing_front. pres_go IJ. Qed.
Hint Resolve fill_advancing_front_pres : pres.

(** the second half of point_event *)
Lemma point_event_rest_pres fuel p node_id node_point :
  pres I J (bind (if f_le (px p) (f_add (px node_point) f_eps) then
                    bind (fill_one dbg points fuel node_id) (fun _ => skip) else skip)
                 (fun _ => fill_advancing_front dbg points fuel p)).
Proof using IJ H_fill. pres_go IJ. Qed.

Lemma fill_right_concave_pres : forall fuel e id, pres I J (fill_right_concave_edge_event dbg points fuel e id).
Proof using IJ H_fill. induction fuel as [|f IH]; intros e id; simpl; pres_go IJ. Qed.
Lemma fill_left_concave_pres : forall fuel e id, pres I J (fill_left_concave_edge_event dbg points fuel e id).
Proof using IJ H_fill. induction fuel as [|f IH]; intros e id; simpl; pres_go IJ. Qed.
Hint Resolve fill_right_concave_pres fill_left_concave_pres : pres.
Lemma fill_right_convex_pres : forall fuel e id, pres I J (fill_right_convex_edge_event dbg points fuel e id).
Proof using IJ H_fill. induction fuel as [|f IH]; intros e id; simpl; pres_go IJ. Qed.
Lemma fill_left_convex_pres : forall fuel e id, pres I J (fill_left_convex_edge_event dbg points fuel e id).
Proof using IJ H_fill. induction fuel as [|f IH]; intros e id; simpl; pres_go IJ. Qed.
Hint Resolve fill_right_convex_pres fill_left_convex_pres : pres.
Lemma fill_right_below_pres : forall fuel e id, pres I J (fill_right_below_edge_event dbg points fuel e id).
Proof using IJ H_fill. induction fuel as [|f IH]; intros e id; simpl; pres_go IJ. Qed.
Lemma fill_left_below_pres : forall fuel e id, pres I J (fill_left_below_edge_event dbg points fuel e id).
Proof using IJ H_fill. induction fuel as [|f IH]; intros e id; simpl; pres_go IJ. Qed.
Hint Resolve fill_right_below_pres fill_left_below_pres : pres.
Lemma fill_right_above_pres : forall fuel e id, pres I J (fill_right_above_edge_event dbg points fuel e id).
Proof using IJ H_fill. induction fuel as [|f IH]; intros e id; simpl; pres_go IJ. Qed.
Lemma fill_left_above_pres : forall fuel e id, pres I J (fill_left_above_edge_event dbg points fuel e id).
Proof using IJ H_fill. induction fuel as [|f IH]; intros e id; simpl; pres_go IJ. Qed.
Hint Resolve fill_right_above_pres fill_left_above_pres : pres.
Lemma fill_edge_event_pres : forall fuel e id, pres I J (fill_edge_event dbg points fuel e id).
Proof using IJ H_fill. intros. unfold fill_edge_event. pres_go IJ. Qed.
Hint Resolve fill_edge_event_pres : pres.

Hypothesis H_mark : forall p q t, pres I J (try_mark_edge_for_triangle p q t).
Hypothesis H_collinear : forall t i, pres I J (mark_collinear t i).
Hypothesis H_flipped : forall t ot p q, pres I J (mark_flipped t ot p q).
Hint Resolve H_mark H_collinear H_flipped : pres.
(** a flip, in the situation in which flip_edge_event makes one *)
Definition may_flip (s : Sweeper) (t_id : tid) (p : pid) (ot_id : tid) (op : pid) : Prop :=
  exists t ot ccw cw pp pb pc pd,
    ts_get_unchecked dbg (s_tris s) t_id = Done t /\ neighbor_across t p = Done ot_id /\
    ts_get_unchecked_at dbg U_flip_across (s_tris s) ot_id = Done ot /\
    opposite_point ot t p = Done op /\ point_ccw t p = Done ccw /\ point_cw t p = Done cw /\
    pt points p = Done pp /\ pt points ccw = Done pb /\ pt points cw = Done pc /\ pt points op = Done pd /\
    in_scan_area pp pb pc pd = true.
Hypothesis H_flip : forall s t_id p ot_id op, I s -> may_flip s t_id p ot_id op ->
  wp (flip_pair dbg points t_id p ot_id op) s (fun _ => J) (fun _ => I).

Lemma next_flip_point_pres ep eq ot op : pres I J (next_flip_point dbg points ep eq ot op).
Proof using IJ. unfold next_flip_point. pres_go IJ. Qed.
Hint Resolve next_flip_point_pres : pres.

Lemma wp_lift_eq {T U} (r : res T) (k : T -> M U) s (Q : U -> Sweeper -> Prop) : I s ->
  (forall x, r = Done x -> wp (k x) s (fun _ => J) Q) -> wp (bind (lift r) k) s (fun _ => J) Q.
Proof using IJ. intros Hi H. apply wp_bind, wp_lift. destruct r; simpl; auto. Qed.

Lemma edge_process_pres : forall fuel,
  (forall ep eq ce t p q, pres I J (edge_event_process dbg points fuel ep eq ce t p q)) /\
  (forall ep eq ce t p q, pres I J (flip_edge_event dbg points fuel ep eq ce t p q)) /\
  (forall ep eq ce ft t p q, pres I J (flip_scan_edge_event dbg points fuel ep eq ce ft t p q)).
Proof using IJ H_flip H_mark H_collinear H_flipped.
  induction fuel as [|f (IH1 & IH2 & IH3)]; [repeat split; intros; simpl; pres_go IJ|].
  split; [|split]; intros; cbn [edge_event_process flip_edge_event flip_scan_edge_event].
  - pres_go IJ.
  - intros s Hs. apply wp_bind, wp_get_tris.
    apply wp_lift_eq; [auto|]. intros t0 E1.
    apply wp_lift_eq; [auto|]. intros ot_id E2.
    apply wp_lift_eq; [auto|]. intros ot E3.
    apply wp_lift_eq; [auto|]. intros op E4.
    apply wp_lift_eq; [auto|]. intros pp E5.
    apply wp_lift_eq; [auto|]. intros ccw E6.
    apply wp_lift_eq; [auto|]. intros pb E7.
    apply wp_lift_eq; [auto|]. intros cw E8.
    apply wp_lift_eq; [auto|]. intros pc E9.
    apply wp_lift_eq; [auto|]. intros pd E10.
    destruct (in_scan_area pp pb pc pd) eqn:E11.
    + apply wp_bind. eapply wp_mono; [eapply H_flip; [exact Hs|]|auto|].
      * exists t0, ot, ccw, cw, pp, pb, pc, pd. tauto.
      * intros u s' Hs'. cbv beta in Hs'. clear u. revert s' Hs'.
        change (pres I J (let queue := q ++ [t; ot_id] in
          if (p =? eq) && (op =? ep) then
            if (eq =? q_id ce) && (ep =? p_id ce) then
              bind (mark_flipped t ot_id ep eq) (fun _ => ret queue) else ret queue
          else bind (lift (pt points eq)) (fun peq => bind (lift (pt points op)) (fun pop =>
               bind (lift (pt points ep)) (fun pep => bind (lift (orient_2d dbg peq pop pep)) (fun o =>
               let '(t', queue) := next_flip_triangle o t ot_id queue in
               flip_edge_event dbg points f ep eq ce t' p queue)))))).
        pres_go IJ.
    + revert s Hs E1 E3. intros s Hs _ _. revert s Hs.
      change (pres I J (bind (next_flip_point dbg points ep eq ot_id op) (fun new_p =>
         bind (flip_scan_edge_event dbg points f ep eq ce t ot_id new_p q) (fun queue =>
         edge_event_process dbg points f ep eq ce t p queue)))).
      pres_go IJ.
  - pres_go IJ.
Qed.

Hypothesis H_legalize : forall fuel t, pres I J (legalize dbg points fuel t).
Hint Resolve H_legalize : pres.
Lemma legalize_all_pres : forall fuel l, pres I J (legalize_all dbg points fuel l).
Proof using IJ H_legalize. intro fuel. induction l as [|t l IH]; simpl; pres_go IJ. Qed.
Hint Resolve legalize_all_pres : pres.

Lemma edge_event_pres : forall fuel e q, pres I J (node_with_cache q) -> pres I J (edge_event dbg points fuel e q).
Proof using IJ H_fill H_mark H_collinear H_flipped H_flip H_legalize.
  intros fuel e q H_cache. unfold edge_event.
  assert (G := proj1 (edge_process_pres fuel)). pres_go IJ.
Qed.
End Trav.
