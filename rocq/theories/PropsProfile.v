(** * PropsProfile: C59 - the two build profiles differ only where a debug check stops the debug build

    The debug assertions, the overflow check and the verification of all triangles after each point are the only
    code that depends on the profile.  They change no state: as long as none of them fails, the two builds go
    through the same states, make the same callbacks and end in the same way.  When one fails, the debug build
    panics there, having made the same callbacks as the release build up to that point. *)
From Coq Require Import List Arith Bool Lia Permutation.
From Coq Require Import ZArith.
From Verif Require Import Base Num Shape Utils Points Triangles Front Sweeper Cdt Lists BuilderSpec History F64 Setup PropsMesh PropsTrace PropsLow PropsRefuted PropsTri IntSpec IntRun IntHyp PropsInt PropsIntEx PropsCdt PropsCdtInt PropsCdtEx PropsUnique PropsTiny Exact Spec PropsTotal PropsMoved Moved ShapeSpec SortSpec Monad Traverse TraceSpec Grow F64Exact FloatLaws PropsBuilder PropsSafe FrontSpec Geom Mesh Good Init Winding CoverRun Stokes Region PropsCover PropsMarks PropsRegion FillTotal Local PropsCup F64Real IntF64 PropsOutcome CountAll PropsCount Unique Turned PropsTurned.
Import ListNotations.

(** the panics of the debug build's own checks: the debug_assert! of the front and of the triangle store, the one of
    orient_2d, and the verification of all triangles after each point (its outcome, or a panic inside it) *)
Definition debug_checks : list psite := [P_front_dbg; P_not_neighbors; P_dbg_orient_same; P_dbg_verify; P_point_not_in_triangle].
(** a debug check stops the debug build *)
Definition checked {T} (r : res T) : Prop := (exists p, r = Panic p /\ In p debug_checks) \/ (exists u, r = Ub u /\ u <> U_alias).
(** a debug check stops the debug build where the release build does an out-of-range access *)
Definition paired {T U} (r1 : res T) (r2 : res U) : Prop :=
  (r1 = Panic P_dbg_invalid_tid /\ exists u, r2 = Ub u /\ u <> U_alias) \/ (r1 = Panic P_locate_underflow /\ r2 = Ub U_front).
Definition rrel {T} (r1 r2 : res T) : Prop := r1 = r2 \/ checked r1 \/ paired r1 r2.

Lemma rr_refl {T} (r : res T) : rrel r r.
Proof. left; reflexivity. Qed.
Lemma checked_bind {T U} (r : res T) (k : T -> res U) : checked r -> checked (rbind r k).
Proof. intros [(p & -> & H)|(u & -> & H)]; [left|right]; cbn; eauto. Qed.
Lemma paired_bind {T U} (r r' : res T) (k k' : T -> res U) : paired r r' -> paired (rbind r k) (rbind r' k').
Proof. intros [[-> (u & -> & N)]|[-> ->]]; [left|right]; cbn; eauto. Qed.
Lemma rr_bind {T U} (r1 r2 : res T) (k1 k2 : T -> res U) : rrel r1 r2 -> (forall x, rrel (k1 x) (k2 x)) -> rrel (rbind r1 k1) (rbind r2 k2).
Proof.
  intros [<-|[H|H]] K; [|right; left; apply checked_bind, H|right; right; apply paired_bind, H].
  destruct r1 as [x| | |]; cbn; try apply rr_refl. apply K.
Qed.
Lemma rr_assert p b (r : res unit) : In p debug_checks -> r = Done tt -> rrel (rassert p b) r.
Proof. intros H ->. unfold rassert. destruct b; [apply rr_refl|]. right. left. left. eauto. Qed.
Ltac rr1 := first [ apply rr_refl | apply rr_bind; [|intro] | match goal with |- rrel (match ?x with _ => _ end) _ => destruct x end ].
Ltac dbgc := apply rr_assert; [cbn; tauto|reflexivity].
Lemma rr_get_at s ts id : s <> U_alias -> rrel (ts_get_unchecked_at true s ts id) (ts_get_unchecked_at false s ts id).
Proof. intro N. destruct id; cbn [ts_get_unchecked_at]; [apply rr_refl|]. right. right. left. eauto. Qed.
Lemma rr_get ts id : rrel (ts_get_unchecked true ts id) (ts_get_unchecked false ts id).
Proof. apply rr_get_at. discriminate. Qed.
Lemma rr_two l r lt rt : rrel (mark_neighbor_for_two_mut true l r lt rt) (mark_neighbor_for_two_mut false l r lt rt).
Proof. unfold mark_neighbor_for_two_mut. destruct (common_edge_index lt rt) as [[]|]; [apply rr_refl|]. right. left. left. exists P_not_neighbors. cbn. tauto. Qed.
Lemma rr_cells s ts l r : s <> U_alias -> rrel (mark_neighbor_cells true s ts l r) (mark_neighbor_cells false s ts l r).
Proof. intro N. unfold mark_neighbor_cells. apply rr_bind; [apply rr_get_at, N|intro]. apply rr_bind; [apply rr_get_at, N|intro]. apply rr_bind; [apply rr_two|intros []; apply rr_refl]. Qed.
Lemma rr_mark ts l r : rrel (mark_neighbor true ts l r) (mark_neighbor false ts l r).
Proof. unfold mark_neighbor. apply rr_bind; [apply rr_refl|intro]. apply rr_cells. discriminate. Qed.

Section S.
Context {A : Arith}.
Lemma rr_orient a b c : rrel (orient_2d true a b c) (orient_2d false a b c).
Proof. unfold orient_2d. apply rr_bind; [dbgc|intro; apply rr_refl]. Qed.
Lemma rr_finsert af p q t : rrel (front_insert true af p q t) (front_insert false af p q t).
Proof. unfold front_insert. apply rr_bind; [dbgc|intro; apply rr_refl]. Qed.
Lemma rr_update af i p t j : rrel (update_and_delete_by_index true af i p t j) (update_and_delete_by_index false af i p t j).
Proof. unfold update_and_delete_by_index. apply rr_bind; [dbgc|intro]. apply rr_bind; [apply rr_refl|intro]. apply rr_bind; [dbgc|intro; apply rr_refl]. Qed.
Lemma rr_locate af p : rrel (locate_node true af p) (locate_node false af p).
Proof. unfold locate_node. destruct (search_by_key af p) as [i|[|j]]; cbn [rbind]; try apply rr_refl. right. right. right. split; reflexivity. Qed.

(** *** programs with state: nothing is taken back from the trace *)
Definition ext (s s' : Sweeper) : Prop := exists l, s_trace s' = l ++ s_trace s.
Lemma ext_refl s : ext s s.
Proof. exists []. reflexivity. Qed.
Lemma ext_trans a b c : ext a b -> ext b c -> ext a c.
Proof. intros [l L] [k K]. exists (k ++ l). rewrite K, L. apply app_assoc. Qed.
Definition rel {T} (m1 m2 : M T) : Prop := forall s, ext s (snd (m2 s)) /\
  (m1 s = m2 s \/ (checked (fst (m1 s)) /\ ext (snd (m1 s)) (snd (m2 s))) \/ (paired (fst (m1 s)) (fst (m2 s)) /\ snd (m1 s) = snd (m2 s))).
Lemma rel_bind {T U} (m1 m2 : M T) (k1 k2 : T -> M U) : rel m1 m2 -> (forall x, rel (k1 x) (k2 x)) -> rel (bind m1 k1) (bind m2 k2).
Proof.
  intros H K s. destruct (H s) as [E C]. unfold bind. destruct (m1 s) as [r1 s1], (m2 s) as [r2 s2]. cbn [fst snd] in *.
  assert (E2 : ext s2 (snd (match r2 with Done a => k2 a s2 | Panic p => (Panic p, s2) | Ub u => (Ub u, s2) | OutOfFuel => (OutOfFuel, s2) end))).
  { destruct r2 as [x| | |]; cbn [snd]; try apply ext_refl. apply (K x). }
  split; [eapply ext_trans; eauto|]. destruct C as [Q|[[C X]|[P X]]].
  - injection Q as -> ->. destruct r2 as [x| | |]; [apply (K x)|left; reflexivity..].
  - right. left. destruct C as [(p & -> & I)|(u & -> & N)]; cbn [fst snd]; (split; [|eapply ext_trans; eauto]); [left|right]; eauto.
  - subst s2. right. right. destruct P as [[-> (u & -> & N)]|[-> ->]]; cbn [fst snd]; (split; [|reflexivity]); [left|right]; eauto.
Qed.
Lemma rel_lift {T} (r1 r2 : res T) : rrel r1 r2 -> rel (lift r1) (lift r2).
Proof.
  intros H s. unfold lift. cbn [fst snd]. split; [apply ext_refl|]. destruct H as [->|[C|P]]; [left; reflexivity|right; left|right; right]; split; auto. apply ext_refl.
Qed.
Lemma rel_ret {T} (x : T) : rel (ret x) (ret x).
Proof. intro s. split; [apply ext_refl|left; reflexivity]. Qed.
Lemma rel_skip : rel skip skip.
Proof. apply rel_ret. Qed.
Lemma rel_fail {T} : rel (@fail_fuel A T) fail_fuel.
Proof. intro s. split; [apply ext_refl|left; reflexivity]. Qed.
Lemma rel_panic {T} p : rel (@panic A T p) (panic p).
Proof. intro s. split; [apply ext_refl|left; reflexivity]. Qed.
Lemma rel_emit e : rel (emit e) (emit e).
Proof. intro s. split; [|left; reflexivity]. unfold emit. cbn [snd s_trace]. eexists [_]. reflexivity. Qed.
Lemma rel_gt : rel get_tris get_tris.
Proof. intro s. split; [apply ext_refl|left; reflexivity]. Qed.
Lemma rel_gf : rel get_front get_front.
Proof. intro s. split; [apply ext_refl|left; reflexivity]. Qed.
Lemma rel_pt ts : rel (put_tris ts) (put_tris ts).
Proof. intro s. split; [exists []; reflexivity|left; reflexivity]. Qed.
Lemma rel_pf f : rel (put_front f) (put_front f).
Proof. intro s. split; [exists []; reflexivity|left; reflexivity]. Qed.
Lemma rel_push t : rel (push_result t) (push_result t).
Proof. intro s. split; [exists []; reflexivity|left; reflexivity]. Qed.

Variable points : Points.
Create HintDb prof.
Hint Resolve rr_get rr_two rr_mark rr_orient rr_finsert rr_update rr_locate : prof.
Ltac rr := cbv zeta; repeat (first [ solve [auto with prof nocore] | apply rr_cells; discriminate | apply rr_get_at; discriminate | rr1 ]; cbv zeta).
Ltac rel1 := first
  [ apply rel_skip | apply rel_ret | apply rel_fail | apply rel_panic | apply rel_emit | apply rel_gt | apply rel_gf | apply rel_pt | apply rel_pf | apply rel_push
  | apply rel_lift; solve [rr]
  | apply rel_bind; [|intro]
  | match goal with |- rel (match ?x with _ => _ end) _ => destruct x end ].
Ltac go := cbv zeta; repeat (first [ solve [auto with prof nocore] | rel1 ]; cbv zeta).

Lemma rel_map_nodes_loop t id : forall l, rel (map_nodes_loop points l t id) (map_nodes_loop points l t id).
Proof. induction l; cbn [map_nodes_loop]; go. Qed.
Hint Resolve rel_map_nodes_loop : prof.
Lemma rel_map_triangle_to_nodes id : rel (map_triangle_to_nodes true points id) (map_triangle_to_nodes false points id).
Proof. unfold map_triangle_to_nodes. go. Qed.
Lemma rel_rotate t p o q : rel (rotate_triangle_pair true t p o q) (rotate_triangle_pair false t p o q).
Proof. unfold rotate_triangle_pair. go. Qed.
Lemma rel_set_delaunay t o : rel (set_delaunay_pair t o) (set_delaunay_pair t o).
Proof. unfold set_delaunay_pair. go. Qed.
Hint Resolve rel_map_triangle_to_nodes rel_rotate rel_set_delaunay : prof.
Lemma rel_legalize_edges t : forall l, rel (legalize_edges true points l t) (legalize_edges false points l t).
Proof. induction l; cbn [legalize_edges]; go. Qed.
Hint Resolve rel_legalize_edges : prof.
Lemma rel_legalize_loop fuel : forall q r, rel (legalize_loop true points fuel q r) (legalize_loop false points fuel q r).
Proof. induction fuel; intros; cbn [legalize_loop]; go. Qed.
Lemma rel_map_triangles : forall l, rel (map_triangles true points l) (map_triangles false points l).
Proof. induction l; cbn [map_triangles]; go. Qed.
Hint Resolve rel_legalize_loop rel_map_triangles : prof.
Lemma rel_legalize fuel t : rel (legalize true points fuel t) (legalize false points fuel t).
Proof. unfold legalize. go. Qed.
Hint Resolve rel_legalize : prof.
Lemma rel_fill_one fuel id : rel (fill_one true points fuel id) (fill_one false points fuel id).
Proof. unfold fill_one. go. Qed.
Hint Resolve rel_fill_one : prof.
Lemma rel_fill_right_holes fuel : forall id, rel (fill_right_holes true points fuel id) (fill_right_holes false points fuel id).
Proof. induction fuel; intros; cbn [fill_right_holes]; go. Qed.
Lemma rel_fill_left_holes fuel : forall id, rel (fill_left_holes true points fuel id) (fill_left_holes false points fuel id).
Proof. induction fuel; intros; cbn [fill_left_holes]; go. Qed.
Lemma rr_walk_bottom af : forall fuel n, rrel (walk_bottom fuel af n) (walk_bottom fuel af n).
Proof. intros. apply rr_refl. Qed.
Lemma rel_fill_basin_req fuel : forall id b, rel (fill_basin_req true points fuel id b) (fill_basin_req false points fuel id b).
Proof. induction fuel; intros; cbn [fill_basin_req]; go. Qed.
Hint Resolve rel_fill_right_holes rel_fill_left_holes rel_fill_basin_req : prof.
Lemma rel_fill_basin fuel id : rel (fill_basin true points fuel id) (fill_basin false points fuel id).
Proof. unfold fill_basin. go. Qed.
Hint Resolve rel_fill_basin : prof.
Lemma rel_fill_advancing_front fuel p : rel (fill_advancing_front true points fuel p) (fill_advancing_front false points fuel p).
Proof. unfold fill_advancing_front. go. Qed.
Lemma rel_insert_point fuel i p : rel (insert_point true points fuel i p) (insert_point false points fuel i p).
Proof. unfold insert_point. go. Qed.
Hint Resolve rel_fill_advancing_front rel_insert_point : prof.
Lemma rel_point_event fuel i p : rel (point_event true points fuel i p) (point_event false points fuel i p).
Proof. unfold point_event. go. Qed.
Lemma rel_try_mark p q t : rel (try_mark_edge_for_triangle p q t) (try_mark_edge_for_triangle p q t).
Proof. unfold try_mark_edge_for_triangle. go. Qed.
Lemma rel_frcc fuel : forall e id, rel (fill_right_concave_edge_event true points fuel e id) (fill_right_concave_edge_event false points fuel e id).
Proof. induction fuel; intros; cbn [fill_right_concave_edge_event]; go. Qed.
Hint Resolve rel_point_event rel_try_mark rel_frcc : prof.
Lemma rel_frcv fuel : forall e id, rel (fill_right_convex_edge_event true points fuel e id) (fill_right_convex_edge_event false points fuel e id).
Proof. induction fuel; intros; cbn [fill_right_convex_edge_event]; go. Qed.
Hint Resolve rel_frcv : prof.
Lemma rel_frb fuel : forall e id, rel (fill_right_below_edge_event true points fuel e id) (fill_right_below_edge_event false points fuel e id).
Proof. induction fuel; intros; cbn [fill_right_below_edge_event]; go. Qed.
Hint Resolve rel_frb : prof.
Lemma rel_fra fuel : forall e id, rel (fill_right_above_edge_event true points fuel e id) (fill_right_above_edge_event false points fuel e id).
Proof. induction fuel; intros; cbn [fill_right_above_edge_event]; go. Qed.
Lemma rel_flcc fuel : forall e id, rel (fill_left_concave_edge_event true points fuel e id) (fill_left_concave_edge_event false points fuel e id).
Proof. induction fuel; intros; cbn [fill_left_concave_edge_event]; go. Qed.
Hint Resolve rel_fra rel_flcc : prof.
Lemma rel_flcv fuel : forall e id, rel (fill_left_convex_edge_event true points fuel e id) (fill_left_convex_edge_event false points fuel e id).
Proof. induction fuel; intros; cbn [fill_left_convex_edge_event]; go. Qed.
Hint Resolve rel_flcv : prof.
Lemma rel_flb fuel : forall e id, rel (fill_left_below_edge_event true points fuel e id) (fill_left_below_edge_event false points fuel e id).
Proof. induction fuel; intros; cbn [fill_left_below_edge_event]; go. Qed.
Hint Resolve rel_flb : prof.
Lemma rel_fla fuel : forall e id, rel (fill_left_above_edge_event true points fuel e id) (fill_left_above_edge_event false points fuel e id).
Proof. induction fuel; intros; cbn [fill_left_above_edge_event]; go. Qed.
Hint Resolve rel_fla : prof.
Lemma rel_fill_edge_event fuel e id : rel (fill_edge_event true points fuel e id) (fill_edge_event false points fuel e id).
Proof. unfold fill_edge_event. go. Qed.
Lemma rel_nfp ep eq o op : rel (next_flip_point true points ep eq o op) (next_flip_point false points ep eq o op).
Proof. unfold next_flip_point. go. Qed.
Lemma rel_flip_pair t p o op : rel (flip_pair true points t p o op) (flip_pair false points t p o op).
Proof. unfold flip_pair. go. Qed.
Lemma rel_mark_flipped t o p q : rel (mark_flipped t o p q) (mark_flipped t o p q).
Proof. unfold mark_flipped. go. Qed.
Lemma rel_mark_collinear t i : rel (mark_collinear t i) (mark_collinear t i).
Proof. unfold mark_collinear. go. Qed.
Lemma rel_node_with_cache q : rel (node_with_cache q) (node_with_cache q).
Proof. unfold node_with_cache. go. Qed.
Lemma rel_legalize_all fuel l : rel (legalize_all true points fuel l) (legalize_all false points fuel l).
Proof. induction l; cbn [legalize_all]; go. Qed.
Hint Resolve rel_fill_edge_event rel_nfp rel_flip_pair rel_mark_flipped rel_mark_collinear rel_node_with_cache rel_legalize_all : prof.
Lemma rel_flips fuel :
  (forall ep eq ce t p q, rel (edge_event_process true points fuel ep eq ce t p q) (edge_event_process false points fuel ep eq ce t p q)) /\
  (forall ep eq ce t p q, rel (flip_edge_event true points fuel ep eq ce t p q) (flip_edge_event false points fuel ep eq ce t p q)) /\
  (forall ep eq ce ft t p q, rel (flip_scan_edge_event true points fuel ep eq ce ft t p q) (flip_scan_edge_event false points fuel ep eq ce ft t p q)).
Proof.
  induction fuel as [|f (IH1 & IH2 & IH3)]; [split; [|split]; intros; apply rel_fail|].
  split; [|split]; intros; cbn [edge_event_process flip_edge_event flip_scan_edge_event]; go.
Qed.
Lemma rel_edge_event fuel e q : rel (edge_event true points fuel e q) (edge_event false points fuel e q).
Proof. pose proof (fun f => proj1 (rel_flips f)) as H. unfold edge_event. go. Qed.
Hint Resolve rel_edge_event : prof.
Lemma rel_edges_loop fuel i q l : rel (edges_loop true points fuel i q l) (edges_loop false points fuel i q l).
Proof. induction l; cbn [edges_loop]; go. Qed.
Hint Resolve rel_edges_loop : prof.

(** the verification of all triangles: it ends, or is one of the checks *)
Definition check_ok {T} (r : res T) : Prop := (exists x, r = Done x) \/ checked r.
Lemma ck_done {T} (x : T) : check_ok (Done x).
Proof. left. eauto. Qed.
Lemma ck_bind {T U} (r : res T) (k : T -> res U) : check_ok r -> (forall x, r = Done x -> check_ok (k x)) -> check_ok (rbind r k).
Proof. intros [[x ->]|C] K; [cbn; auto|right; apply checked_bind, C]. Qed.
Lemma ck_panic {T} p : In p debug_checks -> check_ok (@Panic T p).
Proof. intro H. right. left. eauto. Qed.
Lemma ck_ub {T} u : u <> U_alias -> check_ok (@Ub T u).
Proof. intro H. right. right. eauto. Qed.
Lemma ck_get {T} u (l : list T) i : u <> U_alias -> check_ok (get_unchecked u l i).
Proof. intro H. unfold get_unchecked. destruct (nth_error l i); [apply ck_done|apply ck_ub, H]. Qed.
Lemma ck_mapM {X Y} (f : X -> res Y) : forall l, (forall x, check_ok (f x)) -> check_ok (mapM f l).
Proof. induction l as [|x l IH]; intro H; cbn [mapM]; [apply ck_done|]. apply ck_bind; [apply H|intros; apply ck_bind; [auto|intros; apply ck_done]]. Qed.
Ltac ck1 := first [ apply ck_done | apply ck_get; discriminate | apply ck_ub; discriminate | apply ck_panic; cbn; tauto | apply ck_bind; [|intros]
  | match goal with |- check_ok (match ?x with _ => _ end) => destruct x end ].
Ltac ck := cbv zeta; repeat (ck1; cbv zeta).
Lemma ck_by {T} t p (v0 v1 v2 : T) : check_ok (by_point t p v0 v1 v2).
Proof. unfold by_point. ck. Qed.
Lemma cw_index t p q : point_cw t p = Done q -> point_index t q <> None.
Proof.
  unfold point_cw, by_point, point_index. intro H.
  assert (q = a2 (t_points t) \/ q = a0 (t_points t) \/ q = a1 (t_points t)) as C.
  { destruct (p =? a0 (t_points t)), (p =? a1 (t_points t)), (p =? a2 (t_points t)); try discriminate H; injection H as <-; auto. }
  destruct C as [->|[->| ->]]; rewrite Nat.eqb_refl; repeat match goal with |- (if ?b then _ else _) <> None => destruct b end; discriminate.
Qed.
Lemma ck_legal ts i k : check_ok (is_legal_edge true points ts (Some i) k).
Proof.
  unfold is_legal_edge, ts_get_unchecked, ts_get_unchecked_at, ts_get, pt, get_point_uncheck.
  apply ck_bind; [apply ck_get; discriminate|intros t _]. cbv zeta. apply ck_bind; [ck|intros [ot|] _]; [|apply ck_done].
  apply ck_bind; [unfold opposite_point; apply ck_bind; [apply ck_by|intros; apply ck_by]|intros op E].
  assert (W : point_index ot op <> None).
  { unfold opposite_point in E. destruct (point_cw t (get3 (t_points t) k)) as [x| | |]; try discriminate E. exact (cw_index ot x op E). }
  destruct (point_index ot op) as [oi|]; [|destruct (W eq_refl)]. cbn [unwrap rbind].
  repeat first [apply ck_by | ck1].
Qed.
Lemma ck_verify ts : check_ok (verify_triangles true points ts).
Proof.
  unfold verify_triangles, illegal_triangles. apply ck_bind; [|intros; apply ck_done].
  induction (seq 0 (length ts)) as [|i l IH]; cbn [illegal_loop]; [apply ck_done|]. apply ck_bind; [apply ck_mapM; intro; apply ck_legal|intros]. apply ck_bind; [exact IH|intros; apply ck_done].
Qed.
Lemma rel_verify : rel (bind get_tris (fun ts => bind (lift (verify_triangles true points ts)) (fun ok => bind (lift (rassert P_dbg_verify ok)) (fun _ => skip)))) skip.
Proof.
  intro s. split; [apply ext_refl|]. unfold bind, get_tris, lift, skip, ret. cbn [fst snd].
  destruct (ck_verify (s_tris s)) as [[b ->]|[(p & -> & H)|(u & -> & H)]].
  - destruct b; cbn [rassert fst snd]; [left; reflexivity|]. right. left. split; [left; exists P_dbg_verify; cbn; tauto|apply ext_refl].
  - right. left. split; [left; cbn; eauto|apply ext_refl].
  - right. left. split; [right; cbn; eauto|apply ext_refl].
Qed.
Hint Resolve rel_verify : prof.
Lemma rel_sweep_loop fuel : forall l, rel (sweep_loop true points fuel l) (sweep_loop false points fuel l).
Proof. induction l; cbn [sweep_loop]; go. Qed.
Hint Resolve rel_sweep_loop : prof.
Lemma rel_clean_loop : forall fuel l, rel (clean_loop fuel l) (clean_loop fuel l).
Proof. induction fuel; intros; cbn [clean_loop]; go. Qed.
Hint Resolve rel_clean_loop : prof.
Lemma rel_finalize fuel : rel (finalize_polygon fuel) (finalize_polygon fuel).
Proof. unfold finalize_polygon, clean_mesh. go. Qed.
Hint Resolve rel_finalize : prof.
Lemma rel_run_body fuel : rel (run_body true fuel points) (run_body false fuel points).
Proof. unfold run_body, sweep_points. go. Qed.
End S.

Lemma rel_run {A : Arith} fuel points : let '(r1, s1) := run true fuel points in let '(r2, s2) := run false fuel points in
  (r1 = r2 /\ s1 = s2) \/ (checked r1 /\ ext s1 s2) \/ (paired r1 r2 /\ s1 = s2).
Proof.
  unfold run. destruct (run_init points) as [s| | |]; [|left; split; reflexivity..].
  destruct (rel_run_body points fuel s) as [_ C]. destruct (run_body true fuel points s) as [r1 s1], (run_body false fuel points s) as [r2 s2]. cbn [fst snd] in C.
  destruct C as [Q|[C|C]]; [injection Q as -> ->; left; split; reflexivity|right; left; exact C|right; right; exact C].
Qed.

(** *** C59, any arithmetic, any input (built with the builder or not), any number of steps *)
Theorem C59_any_arithmetic : forall {A : Arith} PD fuel (c : CDT PD) r1 cbs1 r2 cbs2,
  observed true fuel c = (r1, cbs1) -> observed false fuel c = (r2, cbs2) ->
  (r1 = r2 /\ cbs1 = cbs2) \/ (checked r1 /\ exists more, cbs2 = cbs1 ++ more) \/ (paired r1 r2 /\ cbs1 = cbs2).
Proof.
  intros A PD fuel c r1 cbs1 r2 cbs2 O1 O2.
  apply observed_run in O1 as (q1 & s1 & R1 & -> & _ & ->). apply observed_run in O2 as (q2 & s2 & R2 & -> & _ & ->).
  pose proof (rel_run fuel (c_points c)) as H. rewrite R1, R2 in H. destruct H as [[-> ->]|[[C [l L]]|[P ->]]].
  - left. split; reflexivity.
  - right. left. split; [apply checked_bind, C|]. exists (rev l). rewrite L, rev_app_distr. reflexivity.
  - right. right. split; [apply paired_bind, P|reflexivity].
Qed.

(** *** C59.  Whatever was added to the builder, whatever the f64 coordinates (NaN and infinities too): both builds
    end in the same way after the same callbacks; or the debug build is stopped by one of its own checks, having made
    the same callbacks up to there; or both stop at the same access, the debug build with a panic, the release build
    with the out-of-range read of sweeper.rs:921. *)
Theorem C59_profiles_agree_until_a_check_fails : forall PD fuel (src : @source F64 PD) calls (b : Builder PD) r1 cbs1 r2 cbs2,
  builder_of PD src calls = Done b -> f64_points (history_points PD src calls) ->
  observed true fuel (build PD b) = (r1, cbs1) -> observed false fuel (build PD b) = (r2, cbs2) ->
  (r1 = r2 /\ cbs1 = cbs2) \/
  (exists p more, r1 = Panic p /\ In p debug_checks /\ cbs2 = cbs1 ++ more) \/
  (r1 = Panic P_dbg_invalid_tid /\ r2 = Ub U_flip_across /\ cbs1 = cbs2).
Proof.
  intros PD fuel src calls b r1 cbs1 r2 cbs2 B FP O1 O2.
  destruct (C13_f64_undefined_behaviour_is_one_of_two_partial _ _ _ _ _ _ _ _ B FP O1) as [U1 _].
  destruct (C13_f64_undefined_behaviour_is_one_of_two_partial _ _ _ _ _ _ _ _ B FP O2) as [U2 _].
  destruct (C59_any_arithmetic PD fuel (build PD b) r1 cbs1 r2 cbs2 O1 O2) as [H|[[[(p & -> & I)|(u & -> & N)] [more E]]|[[[-> (u & -> & N)]|[-> ->]] E]]].
  - left. exact H.
  - right. left. eauto.
  - exfalso. destruct (U1 u eq_refl) as [->|[D _]]; [apply N; reflexivity|discriminate D].
  - right. right. destruct (U2 u eq_refl) as [->|[_ ->]]; [exfalso; apply N; reflexivity|auto].
  - exfalso. destruct (U2 U_front eq_refl) as [D|[_ D]]; discriminate D.
Qed.

(** What the debug build returns, the release build returns - in any arithmetic, with the same callbacks ... *)
Theorem C59_debug_result_is_release_result : forall {A : Arith} PD fuel (c : CDT PD) t cbs,
  observed true fuel c = (Done t, cbs) -> observed false fuel c = (Done t, cbs).
Proof.
  intros A PD fuel c t cbs O. destruct (observed false fuel c) as [r2 cbs2] eqn:O2.
  destruct (C59_any_arithmetic PD fuel c _ _ _ _ O O2) as [[<- <-]|[[[(p & Q & _)|(u & Q & _)] _]|[[[Q _]|[Q _]] _]]]; [reflexivity|discriminate..].
Qed.
(** ... and what it reads from the result too. *)
Lemma rr_indices ts : forall l, rrel (indices_loop true ts l) (indices_loop false ts l).
Proof. induction l as [|i l IH]; cbn [indices_loop]; [apply rr_refl|]. apply rr_bind; [apply rr_get|intro]. apply rr_bind; [exact IH|intro; apply rr_refl]. Qed.
Lemma rrel_done {T} (r1 r2 : res T) x : rrel r1 r2 -> r1 = Done x -> r2 = Done x.
Proof. intros [<-|[[(p & Q & _)|(u & Q & _)]|[[Q _]|[Q _]]]] E; congruence. Qed.
Theorem C59_same_indices_and_iterator : forall {A : Arith} PD (t : Triangles PD) ids o,
  (triangle_list_indices true PD t = Done ids -> triangle_list_indices false PD t = Done ids) /\
  (triangles_next true PD t = Done o -> triangles_next false PD t = Done o).
Proof.
  intros A PD t ids o. split; intro H.
  - eapply rrel_done; [|exact H]. apply rr_indices.
  - eapply rrel_done; [|exact H]. unfold triangles_next. destruct (tr_next t <? length (tr_result t)); [|apply rr_refl]. cbv zeta.
    apply rr_bind; [apply rr_refl|intro]. apply rr_bind; [apply rr_get|intro; apply rr_refl].
Qed.
(** A user of the release build loses nothing but the checks: if it returns, the debug build returns the same
    or reports a failed check. *)
Theorem C59_release_result_is_debug_result_or_check : forall PD fuel (src : @source F64 PD) calls (b : Builder PD) t cbs,
  builder_of PD src calls = Done b -> f64_points (history_points PD src calls) -> observed false fuel (build PD b) = (Done t, cbs) ->
  observed true fuel (build PD b) = (Done t, cbs) \/ exists p before more, observed true fuel (build PD b) = (Panic p, before) /\ In p debug_checks /\ cbs = before ++ more.
Proof.
  intros PD fuel src calls b t cbs B FP O. destruct (observed true fuel (build PD b)) as [r1 cbs1] eqn:O1.
  destruct (C59_profiles_agree_until_a_check_fails PD fuel src calls b r1 cbs1 _ _ B FP O1 O) as [[-> ->]|[(p & more & -> & I & ->)|(_ & D & _)]]; [left; reflexivity| |discriminate D].
  right. eauto 8.
Qed.

(** On the integer and fixed-point inputs of C28 no debug check ever fails: the two builds return the same triangles
    after the same callbacks. *)
Theorem C59_integer_inputs : forall PD (src : @source F64 PD) calls ue zs,
  unit_ok ue -> history_points PD src calls = map (grid ue) zs -> integer_input zs ->
  let es := history_edges PD src calls in
  edges_apart zs es -> (forall p q, In (p, q) es \/ In (q, p) es -> ~ capped zs p q) ->
  let poly := outer_contour PD src in let holes := hole_contours PD src calls in
  (forall c, In c (poly :: holes) -> 3 <= length c) -> holes_inside zs poly holes -> loose_points_allowed zs poly holes ->
  exists b t ids, builder_of PD src calls = Done b /\ proper_cdt (length zs) (zat zs) es poly holes ids /\
  exists cbs, forall dbg fuel, steps (length zs) <= fuel -> observed dbg fuel (build PD b) = (Done t, cbs) /\ triangle_list_indices dbg PD t = Done ids.
Proof.
  intros PD src calls ue zs U HP IN es EA CU poly holes L3 HI LP.
  destruct (C28_integer_inputs_cdt_partial PD src calls ue zs U HP IN EA CU L3 HI LP) as (b & B & R). destruct (R true) as (t & ids & T & X & C).
  exists b, t, ids. split; [exact B|]. split; [exact C|]. specialize (T _ (le_n _)). clear R.
  destruct (observed true (steps (length zs)) (build PD b)) as [r cbs] eqn:O.
  assert (r = Done t) as ->. { rewrite <- T, <- (C07_observer_independent PD _ true (steps (length zs)) (build PD b) (fun o cb => o ++ [cb]) []). unfold observed in O. rewrite O. reflexivity. }
  exists cbs. intros dbg fuel LE. pose proof (fuel_irrelevant PD true _ fuel _ _ _ O LE) as O'. cbn beta iota in O'. destruct dbg; [split; [exact O'|exact X]|].
  split; [exact (C59_debug_result_is_release_result PD fuel _ t cbs O')|exact (proj1 (C59_same_indices_and_iterator PD t ids (None, t)) X)].
Qed.
Theorem C59_polygon : forall zs, integer_input zs -> edges_apart zs (ring (length zs)) -> (forall p q, In (p, q) (ring (length zs)) \/ In (q, p) (ring (length zs)) -> ~ capped zs p q) ->
  exists ids, proper_cdt (length zs) (zat zs) (ring (length zs)) (seq 0 (length zs)) [] ids /\
  forall dbg fuel, steps (length zs) <= fuel -> indices64 dbg fuel zs [] [] = Done ids.
Proof.
  intros zs IN EA CU. destruct (C28_integer_polygon_cdt_partial zs IN EA CU true) as (ids & T & C). exists ids. split; [exact C|]. intros [|] fuel LE; [exact (T fuel LE)|].
  specialize (T fuel LE). unfold indices64, triangulate64 in *. destruct (cdt64 zs [] []) as [c| | |]; [|discriminate T..]. cbn [rbind] in *.
  destruct (triangulate true unit fuel c) as [t| | |] eqn:E; [|discriminate T..]. cbn [rbind] in T.
  destruct (observed true fuel c) as [r cbs] eqn:O.
  assert (r = Done t) as ->. { rewrite <- E, <- (C07_observer_independent unit _ true fuel c (fun o cb => o ++ [cb]) []). unfold observed in O. rewrite O. reflexivity. }
  apply C59_debug_result_is_release_result in O. rewrite <- (C07_observer_independent unit _ false fuel c (fun o cb => o ++ [cb]) []).
  unfold observed in O. rewrite O. cbn [fst rbind]. exact (proj1 (C59_same_indices_and_iterator unit t ids (None, t)) T).
Qed.

(** On every integer input, capped edges or not: both builds return the same correct triangulation after the same
    callbacks; or both announce the same inverted triangle, after the same callbacks. *)
Theorem C59_integer_outcome : forall PD (src : @source F64 PD) calls ue zs,
  unit_ok ue -> history_points PD src calls = map (grid ue) zs -> integer_input zs ->
  let es := history_edges PD src calls in edges_apart zs es ->
  let poly := outer_contour PD src in let holes := hole_contours PD src calls in
  (forall c, In c (poly :: holes) -> 3 <= length c) -> holes_inside zs poly holes -> loose_points_allowed zs poly holes ->
  exists b, builder_of PD src calls = Done b /\
  forall fuel, steps (length zs) <= fuel ->
  (exists t ids cbs, proper_cdt (length zs) (zat zs) es poly holes ids /\
     forall dbg, observed dbg fuel (build PD b) = (Done t, cbs) /\ triangle_list_indices dbg PD t = Done ids) \/
  (exists before cb p q, (forall dbg, exists r after, observed dbg fuel (build PD b) = (r, before ++ cb :: after)) /\
     (forall cb', In cb' before -> ~ announces_inverted (c_points (build PD b)) cb') /\ announces_inverted (c_points (build PD b)) cb /\
     (In (p, q) es \/ In (q, p) es) /\ capped zs p q).
Proof.
  intros PD src calls ue zs U HP IN es EA poly holes L3 HI LP.
  destruct (C28_integer_correct_or_inverts PD src calls ue zs U HP IN EA L3 HI LP) as (b & B & R). exists b. split; [exact B|]. intros fuel LE.
  destruct (observed true fuel (build PD b)) as [r1 cbs1] eqn:O1. destruct (observed false fuel (build PD b)) as [r2 cbs2] eqn:O2.
  destruct (R true fuel LE r1 cbs1 O1) as [(t & ids & -> & X & C)|(before & cb & after & p & q & -> & NB & AI & E & CU & _)].
  - left. exists t, ids, cbs1. split; [exact C|]. intros [|]; [split; [exact O1|exact X]|].
    split; [exact (C59_debug_result_is_release_result PD fuel _ t cbs1 O1)|exact (proj1 (C59_same_indices_and_iterator PD t ids (None, t)) X)].
  - right. exists before, cb, p, q. split; [|auto]. 
    assert (X : exists more, cbs2 = (before ++ cb :: after) ++ more).
    { destruct (C59_any_arithmetic PD fuel (build PD b) _ _ _ _ O1 O2) as [[_ <-]|[[_ M]|[_ <-]]]; [exists []; rewrite app_nil_r; reflexivity|exact M|exists []; rewrite app_nil_r; reflexivity]. }
    destruct X as [more ->]. intros [|]; [exists r1, after; exact O1|]. exists r2, (after ++ more). rewrite <- app_assoc in O2. exact O2.
Qed.

(** For the user's own observer, whatever it does with the callbacks: its final state in the release build is reached
    from its final state in the debug build by further callbacks, by none if the debug build returns. *)
Theorem C59_observers : forall {A : Arith} PD O fuel (c : CDT PD) (obs : O -> callback -> O) o,
  let '(r1, o1) := triangulate_with_observer true PD fuel c obs o in let '(r2, o2) := triangulate_with_observer false PD fuel c obs o in
  exists more, o2 = fold_left obs more o1 /\ (forall t, r1 = Done t -> r2 = Done t /\ more = []).
Proof.
  intros A PD O fuel c obs o.
  pose proof (C07_observer_state PD O true fuel c obs o) as S1. pose proof (C07_observer_state PD O false fuel c obs o) as S2.
  pose proof (C07_observer_independent PD O true fuel c obs o) as I1. pose proof (C07_observer_independent PD O false fuel c obs o) as I2.
  pose proof (C07_observer_independent PD _ true fuel c (fun o cb => o ++ [cb]) []) as J1. pose proof (C07_observer_independent PD _ false fuel c (fun o cb => o ++ [cb]) []) as J2.
  destruct (triangulate_with_observer true PD fuel c obs o) as [r1 o1], (triangulate_with_observer false PD fuel c obs o) as [r2 o2].
  fold (observed true fuel c) in J1. fold (observed false fuel c) in J2. cbn [fst snd] in *.
  destruct (observed true fuel c) as [q1 cbs1] eqn:O1, (observed false fuel c) as [q2 cbs2] eqn:O2. cbn [fst snd] in *. subst o1 o2.
  assert (D : forall t, r1 = Done t -> r2 = Done t /\ cbs2 = cbs1).
  { intros t ->. assert (q1 = Done t) as -> by congruence. pose proof (C59_debug_result_is_release_result PD fuel c t cbs1 O1) as Q. rewrite O2 in Q. injection Q as -> ->. split; congruence. }
  assert (X : exists more, cbs2 = cbs1 ++ more).
  { destruct (C59_any_arithmetic PD fuel c _ _ _ _ O1 O2) as [[_ <-]|[[_ M]|[_ <-]]]; [exists []; rewrite app_nil_r; reflexivity|exact M|exists []; rewrite app_nil_r; reflexivity]. }
  destruct X as [more ->]. exists more. split; [apply fold_left_app|]. intros t Q. destruct (D t Q) as [D1 D2]. split; [exact D1|].
  apply (app_inv_head cbs1). rewrite D2, app_nil_r. reflexivity.
Qed.

(** Non-vacuity: all three cases happen.  The polygon of PropsMesh: both builds return after 40 callbacks and more;
    the self-intersecting polygon of C13: the assertion in one build, the out-of-range read in the other; the polygon
    of C50 in units of 2^-30: the debug build is stopped by a check and the release build goes on. *)
Definition profile_case (src : @source F64 unit) : option (res unit * nat * (res unit * nat)) :=
  match builder_of unit src [] with
  | Done b => let '(r1, l1) := observed true 300 (build unit b) in let '(r2, l2) := observed false 300 (build unit b) in
              Some (erase r1, length l1, (erase r2, length l2))
  | _ => None
  end.
Definition twice : list (Z * Z) := [(3, 0); (4, 3); (0, 0); (4, 3); (0, 3)]%Z.
Example profiles_differ :
  profile_case (grid_src 0 star) = Some (Done tt, 66, (Done tt, 66)) /\
  profile_case (grid_src 0 w_across) = Some (Panic P_dbg_invalid_tid, 26, (Ub U_flip_across, 26)) /\
  profile_case (grid_src (-30) slit) = Some (Panic P_dbg_orient_same, 10, (Panic P_opposing_on_edge, 10)) /\
  (exists p, profile_case (grid_src 0 twice) = Some (Panic P_not_neighbors, 37, (Panic p, 39))).
Proof.
  split; [vm_compute; reflexivity|]. split; [vm_compute; reflexivity|]. split; [vm_compute; reflexivity|].
  assert (R : match profile_case (grid_src 0 twice) with Some (Panic P_not_neighbors, 37, (Panic _, 39)) => true | _ => false end = true) by (vm_compute; reflexivity).
  destruct (profile_case (grid_src 0 twice)) as [[[r1 n1] [r2 n2]]|]; [|discriminate R].
  destruct r1 as [|[]| |]; try discriminate R. do 38 (destruct n1 as [|n1]; try discriminate R). destruct r2 as [|p| |]; try discriminate R. do 40 (destruct n2 as [|n2]; try discriminate R). exists p. reflexivity.
Qed.
Print Assumptions C59_any_arithmetic.
Print Assumptions C59_profiles_agree_until_a_check_fails.
Print Assumptions C59_debug_result_is_release_result.
Print Assumptions C59_same_indices_and_iterator.
Print Assumptions C59_release_result_is_debug_result_or_check.
Print Assumptions C59_integer_inputs.
Print Assumptions C59_observers.
Print Assumptions C59_integer_outcome.
Print Assumptions C59_polygon.
Example profile_star : exists ids, forall dbg fuel, steps 8 <= fuel -> indices64 dbg fuel star [] [] = Done ids.
Proof. destruct star_ok as (H1 & H2 & H3 & _). destruct (C59_polygon star H1 H2 H3) as (ids & _ & T). exists ids. exact T. Qed.
