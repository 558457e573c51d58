(** * Grow: callbacks are only ever appended *)
From Coq Require Import List Arith Bool Lia.
From Verif Require Import Base Num Shape Utils Points Triangles Front Sweeper Cdt Monad Traverse TraceSpec.
Import ListNotations.

Section S.
Context {A : Arith}.
Variable dbg : bool.
Variable points : Points.
Variable I : Sweeper -> Prop.
(** I only depends on the trace and survives appending callbacks *)
Hypothesis X : forall s s' l, s_trace s' = l ++ s_trace s -> I s -> I s'.
Let IJ : forall s, I s -> I s := fun s h => h.
Let X0 : forall s s', s_trace s = s_trace s' -> I s -> I s'.
Proof. intros s s' H. apply (X s s' []). auto. Qed.
Let HT ts : pres I I (put_tris ts) := pres_put_tris I I ts X0.
Let HF af : pres I I (put_front af) := pres_put_front I I af X0.
Lemma grow_emit e : pres I I (emit e).
Proof using X. intros s Hs. apply wp_emit. eapply (X s _ [_]); [|exact Hs]. reflexivity. Qed.
Let HE := grow_emit.

Lemma grow_rest fuel t q r : pres I I (bind (legalize_loop dbg points fuel q r) (fun remap => bind (map_triangles dbg points remap) (fun _ => emit (EvLegalized t)))).
Proof using X.
  destruct (inner_steps dbg points I X0) as (M1 & M2 & M3).
  assert (E : forall l t, pres I I (legalize_edges dbg points l t)).
  { induction l; intros; simpl; pres_go IJ; auto. }
  assert (L : forall fuel q r, pres I I (legalize_loop dbg points fuel q r)).
  { induction fuel0; intros; simpl; pres_go IJ; auto. }
  assert (G : forall l, pres I I (map_triangles dbg points l)).
  { induction l; simpl; pres_go IJ; auto. }
  pres_go IJ; auto.
Qed.
Lemma grow_legalize fuel t : pres I I (legalize dbg points fuel t).
Proof using X. assert (G := grow_rest). unfold legalize. apply (pres_bind _ _ IJ); auto. Qed.
Let HL := grow_legalize.
Lemma grow_fill_one fuel id : pres I I (fill_one dbg points fuel id).
Proof using X. unfold fill_one. pres_go IJ; auto. Qed.
Lemma grow_insert_point fuel id p : pres I I (insert_point dbg points fuel id p).
Proof using X. unfold insert_point. pres_go IJ; auto. Qed.
Lemma grow_point_event fuel id p : pres I I (point_event dbg points fuel id p).
Proof using X.
  unfold point_event. apply (pres_bind _ _ IJ).
  - unfold insert_point. pres_go IJ; auto.
  - intros [node_id node_point]. apply (point_event_rest_pres dbg points _ _ IJ grow_fill_one).
Qed.
Lemma grow_edge_process fuel :
  (forall ep eq ce t p q, pres I I (edge_event_process dbg points fuel ep eq ce t p q)) /\
  (forall ep eq ce t p q, pres I I (flip_edge_event dbg points fuel ep eq ce t p q)) /\
  (forall ep eq ce ft t p q, pres I I (flip_scan_edge_event dbg points fuel ep eq ce ft t p q)).
Proof using X.
  destruct (inner_steps dbg points I X0) as (M1 & M2 & M3).
  apply (edge_process_pres dbg points _ _ IJ).
  - intros. unfold try_mark_edge_for_triangle. pres_go IJ; auto.
  - intros. unfold mark_collinear. pres_go IJ; auto.
  - intros. unfold mark_flipped. pres_go IJ; auto.
  - intros s t p ot op H _. revert s H. unfold flip_pair.
    change (pres I I (bind (rotate_triangle_pair dbg t p ot op) (fun need_remap : bool =>
      if need_remap then bind (map_triangle_to_nodes dbg points t) (fun _ => map_triangle_to_nodes dbg points ot) else skip))).
    apply (pres_bind _ _ IJ); [apply M2|]. intros []; pres_go IJ; apply M1.
Qed.
Lemma grow_legalize_all fuel l : pres I I (legalize_all dbg points fuel l).
Proof using X. apply (legalize_all_pres dbg points _ _ IJ). apply grow_legalize. Qed.
Lemma grow_edge_event fuel e q : pres I I (edge_event dbg points fuel e q).
Proof using X.
  destruct (inner_steps dbg points I X0) as (M1 & M2 & M3).
  apply (edge_event_pres dbg points _ _ IJ grow_fill_one).
  - intros. unfold try_mark_edge_for_triangle. pres_go IJ; auto.
  - intros. unfold mark_collinear. pres_go IJ; auto.
  - intros. unfold mark_flipped. pres_go IJ; auto.
  - intros s t p ot op H _. revert s H. unfold flip_pair.
    change (pres I I (bind (rotate_triangle_pair dbg t p ot op) (fun need_remap : bool =>
      if need_remap then bind (map_triangle_to_nodes dbg points t) (fun _ => map_triangle_to_nodes dbg points ot) else skip))).
    apply (pres_bind _ _ IJ); [apply M2|]. intros []; pres_go IJ; apply M1.
  - apply grow_legalize.
  - intros. unfold node_with_cache. pres_go IJ; auto.
Qed.
Lemma grow_edges_loop fuel q pq : forall ps, pres I I (edges_loop dbg points fuel q pq ps).
Proof using X. assert (H := grow_edge_event). induction ps; simpl; pres_go IJ; auto. Qed.
Lemma grow_sweep_loop fuel : forall l, pres I I (sweep_loop dbg points fuel l).
Proof using X.
  assert (H := grow_edges_loop). assert (H' := grow_point_event).
  induction l as [|[[i p] es] l IH]; simpl; pres_go IJ; auto. all: case dbg; pres_go IJ; auto.
Qed.
Lemma grow_finalize fuel : pres I I (finalize_polygon fuel).
Proof using X. apply trace_only; auto. Qed.
End S.

(** the three functions of an edge insertion report nothing *)
Section Still.
Context {A : Arith}.
Variable dbg : bool.
Variable points : Points.
Variable I : Sweeper -> Prop.
Hypothesis X0 : forall s s', s_trace s = s_trace s' -> I s -> I s'.
Let IJ : forall s, I s -> I s := fun s h => h.
Let HT ts : pres I I (put_tris ts) := pres_put_tris I I ts X0.
Let HF af : pres I I (put_front af) := pres_put_front I I af X0.
Lemma still_edge_process fuel :
  (forall ep eq ce t p q, pres I I (edge_event_process dbg points fuel ep eq ce t p q)) /\
  (forall ep eq ce t p q, pres I I (flip_edge_event dbg points fuel ep eq ce t p q)) /\
  (forall ep eq ce ft t p q, pres I I (flip_scan_edge_event dbg points fuel ep eq ce ft t p q)).
Proof using X0.
  destruct (inner_steps dbg points I X0) as (M1 & M2 & M3).
  apply (edge_process_pres dbg points _ _ IJ).
  - intros. unfold try_mark_edge_for_triangle. pres_go IJ; auto.
  - intros. unfold mark_collinear. pres_go IJ; auto.
  - intros. unfold mark_flipped. pres_go IJ; auto.
  - intros s t p ot op H _. revert s H. unfold flip_pair.
    change (pres I I (bind (rotate_triangle_pair dbg t p ot op) (fun need_remap : bool =>
      if need_remap then bind (map_triangle_to_nodes dbg points t) (fun _ => map_triangle_to_nodes dbg points ot) else skip))).
    apply (pres_bind _ _ IJ); [apply M2|]. intros []; pres_go IJ; apply M1.
Qed.
End Still.
