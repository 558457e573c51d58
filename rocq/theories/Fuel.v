(** * Fuel: more fuel never changes an outcome

    [fm m m']: if [m] does not run out of fuel, [m'] does exactly the same; if it does, [m']
    gets at least as far (its callbacks extend those of [m]).  Every function of the model is
    [fm] in its fuel, so "terminates" can be read as "does not run out of some fuel". *)
From Coq Require Import List Arith Bool Lia.
From Verif Require Import Base Num Shape Utils Points Triangles Front Sweeper Cdt.
Import ListNotations.

Section Fm.
Context {A : Arith}.
Definition ext (s s' : Sweeper) : Prop := exists l, s_trace s' = l ++ s_trace s.
Lemma ext_refl s : ext s s. Proof using. exists []. auto. Qed.
Lemma ext_trans s1 s2 s3 : ext s1 s2 -> ext s2 s3 -> ext s1 s3.
Proof using. intros [l1 H1] [l2 H2]. exists (l2 ++ l1). rewrite H2, H1, app_assoc. auto. Qed.
Definition fm {T} (m m' : M T) : Prop := forall s, ext s (snd (m' s)) /\
  (fst (m s) <> OutOfFuel -> m' s = m s) /\ (fst (m s) = OutOfFuel -> ext (snd (m s)) (snd (m' s))).
Definition rm {T} (r r' : res T) : Prop := r <> OutOfFuel -> r' = r.

Lemma fm_self {T} (m : M T) : (forall s, ext s (snd (m s))) -> fm m m.
Proof using. intros H s. split; auto. split; auto. intros _. apply ext_refl. Qed.
Lemma fm_same {T} (m : M T) : (forall s, s_trace (snd (m s)) = s_trace s) -> fm m m.
Proof using. intro H. apply fm_self. intro s. exists []. apply H. Qed.
Lemma fm_ret {T} (x : T) : fm (ret x) (ret x). Proof using. apply fm_same. auto. Qed.
Lemma fm_skip : fm skip skip. Proof using. apply fm_same. auto. Qed.
Lemma fm_get_tris : fm get_tris get_tris. Proof using. apply fm_same. auto. Qed.
Lemma fm_get_front : fm get_front get_front. Proof using. apply fm_same. auto. Qed.
Lemma fm_put_tris ts : fm (put_tris ts) (put_tris ts). Proof using. apply fm_same. auto. Qed.
Lemma fm_put_front af : fm (put_front af) (put_front af). Proof using. apply fm_same. auto. Qed.
Lemma fm_push t : fm (push_result t) (push_result t). Proof using. apply fm_same. auto. Qed.
Lemma fm_panic {T} p : fm (@panic A T p) (panic p). Proof using. apply fm_same. auto. Qed.
Lemma fm_emit e : fm (emit e) (emit e). Proof using. apply fm_self. intro s. eexists [_]. reflexivity. Qed.
Lemma fm_lift {T} (r r' : res T) : rm r r' -> fm (lift r) (lift r').
Proof using. intros H s. cbn. split; [apply ext_refl|]. split; [intro Q; unfold lift; rewrite (H Q); auto|]. intros _. apply ext_refl. Qed.
Lemma rm_refl {T} (r : res T) : rm r r. Proof using. intro. auto. Qed.
Lemma fm_fail {T} (m m' : M T) : fm m m' -> fm fail_fuel m'.
Proof using. intros H s. destruct (H s) as (H1 & _). split; auto. split; [intro Q; destruct (Q eq_refl)|]. intros _. exact H1. Qed.
Lemma fm_bind {T U} (m m' : M T) (k k' : T -> M U) : fm m m' -> (forall x, fm (k x) (k' x)) -> fm (bind m k) (bind m' k').
Proof using.
  intros Hm Hk s. destruct (Hm s) as (H1 & H2 & H3). unfold bind. destruct (m s) as [[x|p|u|] s1]; cbn [fst snd] in *.
  - rewrite H2 in * by discriminate. cbn [snd] in H1. destruct (Hk x s1) as (K1 & K2 & K3). split; [eapply ext_trans; eauto|]. auto.
  - rewrite H2 in * by discriminate. split; auto. split; [auto|]. discriminate.
  - rewrite H2 in * by discriminate. split; auto. split; [auto|]. discriminate.
  - specialize (H3 eq_refl). clear H2. destruct (m' s) as [[x|p|u|] s2]; cbn [fst snd] in *.
    2-4: split; [exact H1|split; [congruence|auto]].
    destruct (Hk x s2) as (K1 & _). split; [eapply ext_trans; eauto|]. split; [congruence|]. intros _. eapply ext_trans; eauto.
Qed.
End Fm.

Ltac fm1 :=
  lazymatch goal with
  | |- fm (bind _ _) (bind _ _) => apply fm_bind; [|intros]
  | |- fm (lift _) (lift _) => apply fm_lift
  | |- fm (ret _) _ => apply fm_ret
  | |- fm skip _ => apply fm_skip
  | |- fm get_tris _ => apply fm_get_tris
  | |- fm get_front _ => apply fm_get_front
  | |- fm (put_tris _) _ => apply fm_put_tris
  | |- fm (put_front _) _ => apply fm_put_front
  | |- fm (push_result _) _ => apply fm_push
  | |- fm (emit _) _ => apply fm_emit
  | |- fm (panic _) _ => apply fm_panic
  | |- fm (if ?b then _ else _) _ => destruct b
  | |- fm (match ?x with _ => _ end) _ => destruct x
  | |- rm ?r ?r => apply rm_refl
  end.
Create HintDb fm.
Ltac fm_go := cbv zeta; repeat (first [ fm1 | solve [eauto with fm] ]; cbv zeta).
Section S.
Context {A : Arith}.
Variable dbg : bool.
Variable points : Points.

Lemma fm_map_nodes l t id : fm (map_nodes_loop points l t id) (map_nodes_loop points l t id).
Proof using. induction l as [|i l IH]; cbn [map_nodes_loop]; fm_go. Qed.
Hint Resolve fm_map_nodes : fm.
Lemma fm_map_triangle id : fm (map_triangle_to_nodes dbg points id) (map_triangle_to_nodes dbg points id).
Proof using. unfold map_triangle_to_nodes. fm_go. Qed.
Hint Resolve fm_map_triangle : fm.
Lemma fm_map_triangles l : fm (map_triangles dbg points l) (map_triangles dbg points l).
Proof using. induction l as [|t l IH]; cbn [map_triangles]; fm_go. Qed.
Lemma fm_rotate t p o op : fm (rotate_triangle_pair dbg t p o op) (rotate_triangle_pair dbg t p o op).
Proof using. unfold rotate_triangle_pair. fm_go. Qed.
Lemma fm_set_delaunay t o : fm (set_delaunay_pair t o) (set_delaunay_pair t o).
Proof using. unfold set_delaunay_pair. fm_go. Qed.
Hint Resolve fm_map_triangles fm_rotate fm_set_delaunay : fm.
Lemma fm_legalize_edges l t : fm (legalize_edges dbg points l t) (legalize_edges dbg points l t).
Proof using. induction l as [|i l IH]; cbn [legalize_edges]; fm_go. Qed.
Hint Resolve fm_legalize_edges : fm.

Lemma fm_legalize_loop : forall f', forall f q r, f <= f' -> fm (legalize_loop dbg points f q r) (legalize_loop dbg points f' q r).
Proof using.
  induction f' as [|g IH]; intros f q r L; [replace f with 0 by lia; apply fm_self; intro; apply ext_refl|].
  assert (ST : forall h, h <= g -> fm (legalize_loop dbg points (S h) q r) (legalize_loop dbg points (S g) q r)).
  { intros h Lh. cbn [legalize_loop]. fm_go. }
  destruct f as [|f]; [eapply fm_fail, (ST g); auto|apply ST; lia].
Qed.
Lemma fm_legalize f f' t : f <= f' -> fm (legalize dbg points f t) (legalize dbg points f' t).
Proof using. intro L. unfold legalize. pose proof fm_legalize_loop. fm_go. Qed.
Hint Resolve fm_legalize : fm.
Lemma fm_fill_one f f' id : f <= f' -> fm (fill_one dbg points f id) (fill_one dbg points f' id).
Proof using. intro L. unfold fill_one. fm_go. Qed.
Hint Resolve fm_fill_one : fm.
Lemma fm_right_holes : forall f' f id, f <= f' -> fm (fill_right_holes dbg points f id) (fill_right_holes dbg points f' id).
Proof using.
  induction f' as [|g IH]; intros f id L; [replace f with 0 by lia; apply fm_self; intro; apply ext_refl|].
  assert (ST : forall h, h <= g -> fm (fill_right_holes dbg points (S h) id) (fill_right_holes dbg points (S g) id)) by (intros h Lh; cbn [fill_right_holes]; fm_go).
  destruct f as [|f]; [eapply fm_fail, (ST g); auto|apply ST; lia].
Qed.
Lemma fm_left_holes : forall f' f id, f <= f' -> fm (fill_left_holes dbg points f id) (fill_left_holes dbg points f' id).
Proof using.
  induction f' as [|g IH]; intros f id L; [replace f with 0 by lia; apply fm_self; intro; apply ext_refl|].
  assert (ST : forall h, h <= g -> fm (fill_left_holes dbg points (S h) id) (fill_left_holes dbg points (S g) id)) by (intros h Lh; cbn [fill_left_holes]; fm_go).
  destruct f as [|f]; [eapply fm_fail, (ST g); auto|apply ST; lia].
Qed.
Lemma rm_walk_bottom : forall f' f af n, f <= f' -> rm (walk_bottom f af n) (walk_bottom f' af n).
Proof using.
  induction f' as [|g IH]; intros [|f] af n L; try lia; try (intro Q; destruct (Q eq_refl)).
  cbn [walk_bottom]. destruct (next_node af n); [|apply rm_refl]. destruct (f_le _ _); [apply IH; lia|apply rm_refl].
Qed.
Lemma rm_walk_right : forall f' f af n, f <= f' -> rm (walk_right f af n) (walk_right f' af n).
Proof using.
  induction f' as [|g IH]; intros [|f] af n L; try lia; try (intro Q; destruct (Q eq_refl)).
  cbn [walk_right]. destruct (next_node af n); [|apply rm_refl]. destruct (f_lt _ _); [apply IH; lia|apply rm_refl].
Qed.
Hint Resolve fm_right_holes fm_left_holes rm_walk_bottom rm_walk_right : fm.
Lemma fm_basin_req : forall f' f id b, f <= f' -> fm (fill_basin_req dbg points f id b) (fill_basin_req dbg points f' id b).
Proof using.
  induction f' as [|g IH]; intros f id b L; [replace f with 0 by lia; apply fm_self; intro; apply ext_refl|].
  assert (ST : forall h, h <= g -> fm (fill_basin_req dbg points (S h) id b) (fill_basin_req dbg points (S g) id b)) by (intros h Lh; cbn [fill_basin_req]; fm_go).
  destruct f as [|f]; [eapply fm_fail, (ST g); auto|apply ST; lia].
Qed.
Hint Resolve fm_basin_req : fm.
Lemma fm_basin f f' id : f <= f' -> fm (fill_basin dbg points f id) (fill_basin dbg points f' id).
Proof using. intro L. unfold fill_basin. fm_go. Qed.
Hint Resolve fm_basin : fm.
Lemma fm_faf f f' p : f <= f' -> fm (fill_advancing_front dbg points f p) (fill_advancing_front dbg points f' p).
Proof using. intro L. unfold fill_advancing_front. fm_go. Qed.
Lemma fm_insert f f' id p : f <= f' -> fm (insert_point dbg points f id p) (insert_point dbg points f' id p).
Proof using. intro L. unfold insert_point. fm_go. Qed.
Hint Resolve fm_faf fm_insert : fm.
Lemma fm_point_event f f' id p : f <= f' -> fm (point_event dbg points f id p) (point_event dbg points f' id p).
Proof using. intro L. unfold point_event. fm_go. Qed.
Lemma fm_try_mark p q t : fm (try_mark_edge_for_triangle p q t) (try_mark_edge_for_triangle p q t).
Proof using. unfold try_mark_edge_for_triangle. fm_go. Qed.
Hint Resolve fm_point_event fm_try_mark : fm.
Lemma fm_right_concave : forall f' f e id, f <= f' -> fm (fill_right_concave_edge_event dbg points f e id) (fill_right_concave_edge_event dbg points f' e id).
Proof using.
  induction f' as [|g IH]; intros f e id L; [replace f with 0 by lia; apply fm_self; intro; apply ext_refl|].
  assert (ST : forall h, h <= g -> fm (fill_right_concave_edge_event dbg points (S h) e id) (fill_right_concave_edge_event dbg points (S g) e id)) by (intros h Lh; cbn [fill_right_concave_edge_event]; fm_go).
  destruct f as [|f]; [eapply fm_fail, (ST g); auto|apply ST; lia].
Qed.
Hint Resolve fm_right_concave : fm.
Lemma fm_right_convex : forall f' f e id, f <= f' -> fm (fill_right_convex_edge_event dbg points f e id) (fill_right_convex_edge_event dbg points f' e id).
Proof using.
  induction f' as [|g IH]; intros f e id L; [replace f with 0 by lia; apply fm_self; intro; apply ext_refl|].
  assert (ST : forall h, h <= g -> fm (fill_right_convex_edge_event dbg points (S h) e id) (fill_right_convex_edge_event dbg points (S g) e id)) by (intros h Lh; cbn [fill_right_convex_edge_event]; fm_go).
  destruct f as [|f]; [eapply fm_fail, (ST g); auto|apply ST; lia].
Qed.
Hint Resolve fm_right_convex : fm.
Lemma fm_right_below : forall f' f e id, f <= f' -> fm (fill_right_below_edge_event dbg points f e id) (fill_right_below_edge_event dbg points f' e id).
Proof using.
  induction f' as [|g IH]; intros f e id L; [replace f with 0 by lia; apply fm_self; intro; apply ext_refl|].
  assert (ST : forall h, h <= g -> fm (fill_right_below_edge_event dbg points (S h) e id) (fill_right_below_edge_event dbg points (S g) e id)) by (intros h Lh; cbn [fill_right_below_edge_event]; fm_go).
  destruct f as [|f]; [eapply fm_fail, (ST g); auto|apply ST; lia].
Qed.
Hint Resolve fm_right_below : fm.
Lemma fm_right_above : forall f' f e id, f <= f' -> fm (fill_right_above_edge_event dbg points f e id) (fill_right_above_edge_event dbg points f' e id).
Proof using.
  induction f' as [|g IH]; intros f e id L; [replace f with 0 by lia; apply fm_self; intro; apply ext_refl|].
  assert (ST : forall h, h <= g -> fm (fill_right_above_edge_event dbg points (S h) e id) (fill_right_above_edge_event dbg points (S g) e id)) by (intros h Lh; cbn [fill_right_above_edge_event]; fm_go).
  destruct f as [|f]; [eapply fm_fail, (ST g); auto|apply ST; lia].
Qed.
Lemma fm_left_concave : forall f' f e id, f <= f' -> fm (fill_left_concave_edge_event dbg points f e id) (fill_left_concave_edge_event dbg points f' e id).
Proof using.
  induction f' as [|g IH]; intros f e id L; [replace f with 0 by lia; apply fm_self; intro; apply ext_refl|].
  assert (ST : forall h, h <= g -> fm (fill_left_concave_edge_event dbg points (S h) e id) (fill_left_concave_edge_event dbg points (S g) e id)) by (intros h Lh; cbn [fill_left_concave_edge_event]; fm_go).
  destruct f as [|f]; [eapply fm_fail, (ST g); auto|apply ST; lia].
Qed.
Hint Resolve fm_right_above fm_left_concave : fm.
Lemma fm_left_convex : forall f' f e id, f <= f' -> fm (fill_left_convex_edge_event dbg points f e id) (fill_left_convex_edge_event dbg points f' e id).
Proof using.
  induction f' as [|g IH]; intros f e id L; [replace f with 0 by lia; apply fm_self; intro; apply ext_refl|].
  assert (ST : forall h, h <= g -> fm (fill_left_convex_edge_event dbg points (S h) e id) (fill_left_convex_edge_event dbg points (S g) e id)) by (intros h Lh; cbn [fill_left_convex_edge_event]; fm_go).
  destruct f as [|f]; [eapply fm_fail, (ST g); auto|apply ST; lia].
Qed.
Hint Resolve fm_left_convex : fm.
Lemma fm_left_below : forall f' f e id, f <= f' -> fm (fill_left_below_edge_event dbg points f e id) (fill_left_below_edge_event dbg points f' e id).
Proof using.
  induction f' as [|g IH]; intros f e id L; [replace f with 0 by lia; apply fm_self; intro; apply ext_refl|].
  assert (ST : forall h, h <= g -> fm (fill_left_below_edge_event dbg points (S h) e id) (fill_left_below_edge_event dbg points (S g) e id)) by (intros h Lh; cbn [fill_left_below_edge_event]; fm_go).
  destruct f as [|f]; [eapply fm_fail, (ST g); auto|apply ST; lia].
Qed.
Hint Resolve fm_left_below : fm.
Lemma fm_left_above : forall f' f e id, f <= f' -> fm (fill_left_above_edge_event dbg points f e id) (fill_left_above_edge_event dbg points f' e id).
Proof using.
  induction f' as [|g IH]; intros f e id L; [replace f with 0 by lia; apply fm_self; intro; apply ext_refl|].
  assert (ST : forall h, h <= g -> fm (fill_left_above_edge_event dbg points (S h) e id) (fill_left_above_edge_event dbg points (S g) e id)) by (intros h Lh; cbn [fill_left_above_edge_event]; fm_go).
  destruct f as [|f]; [eapply fm_fail, (ST g); auto|apply ST; lia].
Qed.
Hint Resolve fm_left_above : fm.
Lemma fm_fill_edge f f' e id : f <= f' -> fm (fill_edge_event dbg points f e id) (fill_edge_event dbg points f' e id).
Proof using. intro L. unfold fill_edge_event. fm_go. Qed.
Lemma fm_next_flip_point ep eq o op : fm (next_flip_point dbg points ep eq o op) (next_flip_point dbg points ep eq o op).
Proof using. unfold next_flip_point. fm_go. Qed.
Lemma fm_flip_pair t p o op : fm (flip_pair dbg points t p o op) (flip_pair dbg points t p o op).
Proof using. unfold flip_pair. fm_go. Qed.
Lemma fm_mark_flipped t o p q : fm (mark_flipped t o p q) (mark_flipped t o p q).
Proof using. unfold mark_flipped. fm_go. Qed.
Lemma fm_mark_collinear t i : fm (mark_collinear t i) (mark_collinear t i).
Proof using. unfold mark_collinear. fm_go. Qed.
Hint Resolve fm_fill_edge fm_next_flip_point fm_flip_pair fm_mark_flipped fm_mark_collinear : fm.
Lemma fm_process : forall f',
  (forall f ep eq ce t p q, f <= f' -> fm (edge_event_process dbg points f ep eq ce t p q) (edge_event_process dbg points f' ep eq ce t p q)) /\
  (forall f ep eq ce t p q, f <= f' -> fm (flip_edge_event dbg points f ep eq ce t p q) (flip_edge_event dbg points f' ep eq ce t p q)) /\
  (forall f ep eq ce ft t p q, f <= f' -> fm (flip_scan_edge_event dbg points f ep eq ce ft t p q) (flip_scan_edge_event dbg points f' ep eq ce ft t p q)).
Proof using.
  induction f' as [|g (IH1 & IH2 & IH3)]; [split; [|split]; intros; replace f with 0 by lia; apply fm_self; intro; apply ext_refl|].
  split; [|split].
  - intros f ep eq ce t p q L. assert (ST : forall h, h <= g -> fm (edge_event_process dbg points (S h) ep eq ce t p q) (edge_event_process dbg points (S g) ep eq ce t p q)) by (intros h Lh; cbn [edge_event_process]; fm_go).
    destruct f as [|f]; [eapply fm_fail, (ST g); auto|apply ST; lia].
  - intros f ep eq ce t p q L. assert (ST : forall h, h <= g -> fm (flip_edge_event dbg points (S h) ep eq ce t p q) (flip_edge_event dbg points (S g) ep eq ce t p q)) by (intros h Lh; cbn [flip_edge_event]; fm_go).
    destruct f as [|f]; [eapply fm_fail, (ST g); auto|apply ST; lia].
  - intros f ep eq ce ft t p q L. assert (ST : forall h, h <= g -> fm (flip_scan_edge_event dbg points (S h) ep eq ce ft t p q) (flip_scan_edge_event dbg points (S g) ep eq ce ft t p q)) by (intros h Lh; cbn [flip_scan_edge_event]; fm_go).
    destruct f as [|f]; [eapply fm_fail, (ST g); auto|apply ST; lia].
Qed.
Lemma fm_legalize_all f f' l : f <= f' -> fm (legalize_all dbg points f l) (legalize_all dbg points f' l).
Proof using. intro L. induction l as [|t l IH]; cbn [legalize_all]; fm_go. Qed.
Lemma fm_node_cache q : fm (node_with_cache q) (node_with_cache q).
Proof using. unfold node_with_cache. fm_go. Qed.
Hint Resolve fm_legalize_all fm_node_cache : fm.
Lemma fm_edge_event f f' e q : f <= f' -> fm (edge_event dbg points f e q) (edge_event dbg points f' e q).
Proof using. intro L. unfold edge_event. destruct (fm_process f') as (H1 & _). fm_go. Qed.
Hint Resolve fm_edge_event : fm.
Lemma fm_edges_loop f f' qi q l : f <= f' -> fm (edges_loop dbg points f qi q l) (edges_loop dbg points f' qi q l).
Proof using. intro L. induction l as [|t l IH]; cbn [edges_loop]; fm_go. Qed.
Hint Resolve fm_edges_loop : fm.
Lemma fm_sweep_loop f f' l : f <= f' -> fm (sweep_loop dbg points f l) (sweep_loop dbg points f' l).
Proof using. intro L. induction l as [|[[id p] es] l IH]; cbn [sweep_loop]; fm_go. Qed.
Hint Resolve fm_sweep_loop : fm.
Lemma fm_sweep_points f f' : f <= f' -> fm (sweep_points dbg points f) (sweep_points dbg points f').
Proof using. intro L. unfold sweep_points. fm_go. Qed.
Lemma fm_clean_loop : forall f' f st, f <= f' -> fm (clean_loop f st) (clean_loop f' st).
Proof using.
  induction f' as [|g IH]; intros f st L; [replace f with 0 by lia; apply fm_self; intro; apply ext_refl|].
  assert (ST : forall h, h <= g -> fm (clean_loop (S h) st) (clean_loop (S g) st)) by (intros h Lh; cbn [clean_loop]; fm_go).
  destruct f as [|f]; [eapply fm_fail, (ST g); auto|apply ST; lia].
Qed.
Lemma rm_find_interior : forall f' f ts p t, f <= f' -> rm (find_interior f ts p t) (find_interior f' ts p t).
Proof using.
  induction f' as [|g IH]; intros [|f] ts p t L; try lia; try (intro Q; destruct (Q eq_refl)).
  cbn [find_interior]. destruct (ts_get ts t) as [[tri|]| | |]; try apply rm_refl. cbn [rbind].
  destruct (constrained_edge_cw tri p) as [c| | |]; try apply rm_refl. cbn [rbind]. destruct (negb c); [|apply rm_refl].
  destruct (neighbor_ccw tri p); try apply rm_refl. cbn [rbind]. apply IH. lia.
Qed.
Hint Resolve fm_sweep_points fm_clean_loop rm_find_interior : fm.
Lemma fm_finalize f f' : f <= f' -> fm (finalize_polygon f) (finalize_polygon f').
Proof using. intro L. unfold finalize_polygon, clean_mesh. fm_go. Qed.
Hint Resolve fm_finalize : fm.
Lemma fm_run_body f f' : f <= f' -> fm (run_body dbg f points) (run_body dbg f' points).
Proof using. intro L. unfold run_body. fm_go. Qed.
End S.
