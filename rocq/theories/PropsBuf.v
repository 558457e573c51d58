(** * PropsBuf: C53 - reusing the vectors and looking the points up lazily changes nothing

    SweeperBuf.v models the sweep with the three vectors it keeps between calls
    and with the points fetched one at a time.  They are empty whenever a
    legalization or an edge event takes them, so every run, observed by any
    observer, ends in the same way as the run of Sweeper.v that all other
    theorems are about: same result, same callbacks with the same snapshots,
    same panics, same undefined behaviour. *)
From Coq Require Import List Arith Bool Lia Permutation.
From Verif Require Import Base Num Shape Utils Points Triangles Front Sweeper Cdt SweeperBuf Lists BuilderSpec History SortSpec F64 Setup PropsMesh.
Import ListNotations.

Section Sim.
Context {A : Arith}.
Definition B (s : Sweeper) : Buffered := mkBuf s [] [] [].
(** started with empty vectors: the same outcome and the same state; when it succeeds the vectors are empty again *)
Definition sim {T} (mb : MB T) (m : M T) : Prop := forall s,
  fst (mb (B s)) = fst (m s) /\ b_sw (snd (mb (B s))) = snd (m s) /\
  (forall x, fst (m s) = Done x -> snd (mb (B s)) = B (snd (m s))).

Lemma sim_bind_post {T U} (mb : MB T) (m : M T) (kb : T -> MB U) (k : T -> M U) :
  sim mb m -> (forall s x, fst (m s) = Done x -> sim (kb x) (k x)) -> sim (b_bind mb kb) (bind m k).
Proof.
  intros H K s. destruct (H s) as (H1 & H2 & H3). unfold b_bind, bind. destruct (mb (B s)) as [rb b'], (m s) as [r s'] eqn:Em. cbn [fst snd] in *. subst rb.
  destruct r as [x|p|u|]; cbn [fst snd]; try (split; [reflexivity|split; [exact H2|discriminate]]).
  rewrite (H3 x eq_refl). apply (K s). rewrite Em. reflexivity.
Qed.
Lemma sim_bind {T U} (mb : MB T) (m : M T) (kb : T -> MB U) (k : T -> M U) :
  sim mb m -> (forall x, sim (kb x) (k x)) -> sim (b_bind mb kb) (bind m k).
Proof. intros H K. apply sim_bind_post; auto. Qed.
Lemma sim_rest {T} (m : M T) : sim (rest m) m.
Proof. intro s. unfold rest. cbn [B b_sw]. destruct (m s) as [r s']. cbn [fst snd b_sw b_queue b_remap b_ids B]. auto. Qed.
Lemma sim_ret {T} (x : T) : sim (b_ret x) (ret x).
Proof. intro s. unfold b_ret, ret. cbn [fst snd B b_sw]. auto. Qed.
Lemma sim_skip : sim b_skip skip.
Proof. apply sim_ret. Qed.
Lemma sim_lift {T} (r : res T) : sim (b_lift r) (lift r).
Proof. apply sim_rest. Qed.
Lemma sim_fail {T} : sim (@b_fail_fuel A T) fail_fuel.
Proof. apply sim_rest. Qed.
Lemma sim_emit e : sim (b_emit e) (emit e).
Proof. apply sim_rest. Qed.
Lemma sim_gt : sim b_get_tris get_tris.
Proof. apply sim_rest. Qed.
Lemma sim_gf : sim b_get_front get_front.
Proof. apply sim_rest. Qed.
Lemma sim_pt t : sim (b_put_tris t) (put_tris t).
Proof. apply sim_rest. Qed.
Lemma sim_pf t : sim (b_put_front t) (put_front t).
Proof. apply sim_rest. Qed.
Lemma sim_take_queue {U} (kb : list tid -> MB U) m : sim (kb []) m -> sim (b_bind take_queue kb) m.
Proof. intros H s. exact (H s). Qed.
Lemma sim_take_remap {U} (kb : list tid -> MB U) m : sim (kb []) m -> sim (b_bind take_remap kb) m.
Proof. intros H s. exact (H s). Qed.
Lemma sim_take_ids {U} (kb : list tid -> MB U) m : sim (kb []) m -> sim (b_bind take_ids kb) m.
Proof. intros H s. exact (H s). Qed.
Lemma sim_give_queue {U} (kb : unit -> MB U) m : sim (kb tt) m -> sim (b_bind (give_queue []) kb) m.
Proof. intros H s. exact (H s). Qed.
Lemma sim_give_remap {U} (kb : unit -> MB U) m : sim (kb tt) m -> sim (b_bind (give_remap []) kb) m.
Proof. intros H s. exact (H s). Qed.
Lemma sim_give_ids mb (m : M unit) : sim mb m -> sim (b_bind mb (fun _ => give_ids [])) m.
Proof.
  intros H s. destruct (H s) as (H1 & H2 & H3). unfold b_bind. destruct (mb (B s)) as [rb b'], (m s) as [r s']. cbn [fst snd] in *. subst rb.
  destruct r as [x|p|u|]; cbn [fst snd]; try (split; [reflexivity|split; [exact H2|discriminate]]).
  rewrite (H3 x eq_refl). unfold give_ids. cbn [fst snd b_sw b_queue b_remap b_ids B]. destruct x. split; [reflexivity|]. split; [reflexivity|]. intros. reflexivity.
Qed.

Variable dbg : bool.
Variable points : Points.
Ltac sim1 := first
  [ apply sim_skip | apply sim_ret | apply sim_fail | apply sim_lift | apply sim_emit | apply sim_gt | apply sim_gf | apply sim_pt | apply sim_pf | apply sim_rest
  | apply sim_bind; [|intro]
  | match goal with |- sim (match ?x with _ => _ end) _ => destruct x end ].
Ltac sim := cbv zeta; repeat (first [ solve [auto] | sim1 ]; cbv zeta).

Lemma sim_ext {T} (mb : MB T) m m' : (forall s, m s = m' s) -> sim mb m' -> sim mb m.
Proof. intros Q H s. rewrite Q. apply H. Qed.
Lemma bind_assoc {T U V} (m : M T) (k : T -> M U) (h : U -> M V) s : bind (bind m k) h s = bind m (fun x => bind (k x) h) s.
Proof. unfold bind. destruct (m s) as [[]]; reflexivity. Qed.
Lemma bind_ext {T U} (m : M T) (k k' : T -> M U) s : (forall x s', k x s' = k' x s') -> bind m k s = bind m k' s.
Proof. intro Q. unfold bind. destruct (m s) as [[]]; auto. Qed.

(** the loop of [legalize] ends with the stack empty *)
Lemma sim_legalize_loop fuel : forall q r,
  sim (b_legalize_loop dbg points fuel q r) (bind (legalize_loop dbg points fuel q r) (fun l => ret ([], l))).
Proof.
  induction fuel as [|f IH]; intros q r; cbn [b_legalize_loop legalize_loop]; [intro s; cbn; split; [reflexivity|split; [reflexivity|discriminate]]|].
  destruct q as [|t q]; [intro s; cbn; auto|].
  eapply sim_ext; [intro; apply bind_assoc|]. apply sim_bind; [apply sim_rest|]. intros o.
  eapply sim_ext; [intro; apply bind_assoc|]. apply sim_bind; [apply sim_emit|]. intros _.
  destruct o as [[ot nr]|]; apply IH.
Qed.
Lemma sim_legalize fuel t : sim (b_legalize dbg points fuel t) (legalize dbg points fuel t).
Proof.
  unfold b_legalize, legalize. apply sim_bind; [apply sim_emit|intros _]. apply sim_take_remap, sim_take_queue. cbn [app].
  eapply sim_ext with (m' := bind (bind (legalize_loop dbg points fuel [t] [t]) (fun l => ret ([], l))) (fun ql : list tid * list tid => bind (map_triangles dbg points (snd ql)) (fun _ => emit (EvLegalized t)))).
  { intro s. rewrite bind_assoc. apply bind_ext. intros l s'. reflexivity. }
  apply sim_bind_post; [apply sim_legalize_loop|]. intros s [q l] Em.
  assert (q = []) as ->.
  { clear - Em. unfold bind, ret in Em. destruct (legalize_loop dbg points fuel [t] [t] s) as [[]]; cbn [fst] in Em; congruence. }
  cbn [drain snd]. apply sim_bind; [apply sim_rest|intros _]. apply sim_give_queue, sim_give_remap, sim_emit.
Qed.
Hint Resolve sim_legalize : sim.
Ltac go := cbv zeta; repeat (first [ solve [auto with sim nocore] | sim1 ]; cbv zeta).
Lemma sim_fill_one fuel id : sim (b_fill_one dbg points fuel id) (fill_one dbg points fuel id).
Proof. unfold b_fill_one, fill_one. go. Qed.
Hint Resolve sim_fill_one : sim.
Lemma sim_fill_right_holes fuel : forall id, sim (b_fill_right_holes dbg points fuel id) (fill_right_holes dbg points fuel id).
Proof. induction fuel; intros; cbn [b_fill_right_holes fill_right_holes]; go. Qed.
Lemma sim_fill_left_holes fuel : forall id, sim (b_fill_left_holes dbg points fuel id) (fill_left_holes dbg points fuel id).
Proof. induction fuel; intros; cbn [b_fill_left_holes fill_left_holes]; go. Qed.
Lemma sim_fill_basin_req fuel : forall id b, sim (b_fill_basin_req dbg points fuel id b) (fill_basin_req dbg points fuel id b).
Proof. induction fuel; intros; cbn [b_fill_basin_req fill_basin_req]; go. Qed.
Hint Resolve sim_fill_right_holes sim_fill_left_holes sim_fill_basin_req : sim.
Lemma sim_fill_basin fuel id : sim (b_fill_basin dbg points fuel id) (fill_basin dbg points fuel id).
Proof. unfold b_fill_basin, fill_basin. go. Qed.
Hint Resolve sim_fill_basin : sim.
Lemma sim_fill_advancing_front fuel p : sim (b_fill_advancing_front dbg points fuel p) (fill_advancing_front dbg points fuel p).
Proof. unfold b_fill_advancing_front, fill_advancing_front. go. Qed.
Lemma sim_insert_point fuel i p : sim (b_insert_point dbg points fuel i p) (insert_point dbg points fuel i p).
Proof. unfold b_insert_point, insert_point. go. Qed.
Hint Resolve sim_fill_advancing_front sim_insert_point : sim.
Lemma sim_point_event fuel i p : sim (b_point_event dbg points fuel i p) (point_event dbg points fuel i p).
Proof. unfold b_point_event, point_event. go. Qed.
Lemma sim_frcc fuel : forall e id, sim (b_fill_right_concave_edge_event dbg points fuel e id) (fill_right_concave_edge_event dbg points fuel e id).
Proof. induction fuel; intros; cbn [b_fill_right_concave_edge_event fill_right_concave_edge_event]; go. Qed.
Hint Resolve sim_point_event sim_frcc : sim.
Lemma sim_frcv fuel : forall e id, sim (b_fill_right_convex_edge_event dbg points fuel e id) (fill_right_convex_edge_event dbg points fuel e id).
Proof. induction fuel; intros; cbn [b_fill_right_convex_edge_event fill_right_convex_edge_event]; go. Qed.
Hint Resolve sim_frcv : sim.
Lemma sim_frb fuel : forall e id, sim (b_fill_right_below_edge_event dbg points fuel e id) (fill_right_below_edge_event dbg points fuel e id).
Proof. induction fuel; intros; cbn [b_fill_right_below_edge_event fill_right_below_edge_event]; go. Qed.
Hint Resolve sim_frb : sim.
Lemma sim_fra fuel : forall e id, sim (b_fill_right_above_edge_event dbg points fuel e id) (fill_right_above_edge_event dbg points fuel e id).
Proof. induction fuel; intros; cbn [b_fill_right_above_edge_event fill_right_above_edge_event]; go. Qed.
Lemma sim_flcc fuel : forall e id, sim (b_fill_left_concave_edge_event dbg points fuel e id) (fill_left_concave_edge_event dbg points fuel e id).
Proof. induction fuel; intros; cbn [b_fill_left_concave_edge_event fill_left_concave_edge_event]; go. Qed.
Hint Resolve sim_fra sim_flcc : sim.
Lemma sim_flcv fuel : forall e id, sim (b_fill_left_convex_edge_event dbg points fuel e id) (fill_left_convex_edge_event dbg points fuel e id).
Proof. induction fuel; intros; cbn [b_fill_left_convex_edge_event fill_left_convex_edge_event]; go. Qed.
Hint Resolve sim_flcv : sim.
Lemma sim_flb fuel : forall e id, sim (b_fill_left_below_edge_event dbg points fuel e id) (fill_left_below_edge_event dbg points fuel e id).
Proof. induction fuel; intros; cbn [b_fill_left_below_edge_event fill_left_below_edge_event]; go. Qed.
Hint Resolve sim_flb : sim.
Lemma sim_fla fuel : forall e id, sim (b_fill_left_above_edge_event dbg points fuel e id) (fill_left_above_edge_event dbg points fuel e id).
Proof. induction fuel; intros; cbn [b_fill_left_above_edge_event fill_left_above_edge_event]; go. Qed.
Hint Resolve sim_fla : sim.
Lemma sim_fill_edge_event fuel e id : sim (b_fill_edge_event dbg points fuel e id) (fill_edge_event dbg points fuel e id).
Proof. unfold b_fill_edge_event, fill_edge_event. go. Qed.
Lemma sim_legalize_all fuel l : sim (b_legalize_all dbg points fuel l) (legalize_all dbg points fuel l).
Proof. induction l; cbn [b_legalize_all legalize_all]; go. Qed.
Hint Resolve sim_fill_edge_event sim_legalize_all : sim.
Lemma sim_edge_event fuel e q : sim (b_edge_event dbg points fuel e q) (edge_event dbg points fuel e q).
Proof.
  unfold b_edge_event, edge_event. do 4 (apply sim_bind; [first [apply sim_lift|apply sim_rest]|intro]). cbv zeta. 
  match goal with |- sim (if ?b then _ else _) _ => destruct b end; [apply sim_skip|].
  apply sim_bind; [auto with sim nocore|intro]. do 2 (apply sim_bind; [first [apply sim_lift|apply sim_rest]|intro]).
  apply sim_take_ids. apply sim_bind; [apply sim_rest|intro]. cbn [drain]. apply sim_give_ids. auto with sim nocore.
Qed.
Hint Resolve sim_edge_event : sim.
Lemma sim_edges_loop fuel i q l : sim (b_edges_loop dbg points fuel i q l) (edges_loop dbg points fuel i q l).
Proof. induction l; cbn [b_edges_loop edges_loop]; go. Qed.
Hint Resolve sim_edges_loop : sim.
Lemma sim_sweep_loop fuel : forall l items, mapM (next_item points) l = Done items -> sim (b_sweep_loop dbg points fuel l) (sweep_loop dbg points fuel items).
Proof.
  induction l as [|id l IH]; intros items H; cbn [mapM] in H; [injection H as <-; apply sim_skip|].
  destruct (next_item points id) as [[[i p] e]| | |] eqn:Q; cbn [rbind] in H; try discriminate.
  destruct (mapM (next_item points) l) as [ys| | |] eqn:Qs; cbn [rbind] in H; try discriminate. injection H as <-. cbn [b_sweep_loop sweep_loop]. rewrite Q.
  intro s. change (b_bind (b_lift (Done (i, p, e))) ?k (B s)) with (k (i, p, e) (B s)). revert s. cbv beta iota. fold (@sim unit).
  specialize (IH ys eq_refl). go.
Qed.
Theorem sim_run fuel : (forall i, In i (ps_y_sorted points) -> i < length (ps_points points) /\ i < length (ps_edges points)) ->
  sim (b_run_body dbg points fuel) (run_body dbg fuel points).
Proof.
  intros R. unfold b_run_body, run_body. apply sim_bind; [|intros _; go].
  unfold b_sweep_points, sweep_points.
  assert (E : exists items, mapM (next_item points) (skipn 1 (ps_y_sorted points)) = Done items).
  { assert (R' : forall i, In i (skipn 1 (ps_y_sorted points)) -> i < length (ps_points points) /\ i < length (ps_edges points)).
    { intros i Hi. apply R. destruct (ps_y_sorted points); [exact Hi|right; exact Hi]. }
    clear R. induction (skipn 1 (ps_y_sorted points)) as [|i l IH]; [eexists; reflexivity|]. destruct IH as [ys Y]; [intros; apply R'; right; auto|].
    cbn [mapM]. rewrite Y. destruct (R' i (or_introl eq_refl)) as [L1 L2]. apply nth_error_Some in L1, L2. unfold next_item, get_unchecked.
    destruct (nth_error (ps_points points) i); [|congruence]. destruct (nth_error (ps_edges points) i); [|congruence]. cbn [rbind]. eexists; reflexivity. }
  destruct E as [items E]. intro s'. change (iter_point_by_y points 1) with (mapM (next_item points) (skipn 1 (ps_y_sorted points))). rewrite E. 
  exact (sim_sweep_loop fuel _ _ E s').
Qed.
End Sim.

(** *** C53.  Whatever was added to the builder, and whatever the observer: the code with its reused vectors and its
    lazy iterator returns what the model returns - or fails in the same way - and shows the observer the same. *)
Theorem C53_reused_buffers_are_invisible : forall {A : Arith} (dbg : bool) (PD O : Type) (src : source PD) calls b fuel (obs : O -> callback -> O) (o : O),
  builder_of PD src calls = Done b ->
  b_triangulate_with_observer dbg PD fuel (build PD b) obs o = triangulate_with_observer dbg PD fuel (build PD b) obs o.
Proof.
  intros A dbg PD O src calls b fuel obs o H. destruct (builder_of_points PD src calls b H) as (_ & _ & WF).
  unfold b_triangulate_with_observer, triangulate_with_observer, b_run, run. cbn [build c_points c_data].
  destruct (run_init (pb_build (bd_points b))) as [s| | |]; [|reflexivity..].
  assert (R : forall i, In i (ps_y_sorted (pb_build (bd_points b))) -> i < length (ps_points (pb_build (bd_points b))) /\ i < length (ps_edges (pb_build (bd_points b)))).
  { intros i Hi. unfold pb_build in *. apply (Permutation_in _ (y_sorted_perm _ _)), in_seq in Hi. unfold bd_wf, wf_pb in WF. cbn [points_new ps_points ps_edges]. rewrite !app_length. cbn [length]. lia. }
  destruct (sim_run dbg (pb_build (bd_points b)) fuel R s) as (H1 & H2 & _). fold (B s).
  destruct (b_run_body dbg (pb_build (bd_points b)) fuel (B s)) as [rb b'], (run_body dbg fuel (pb_build (bd_points b)) s) as [r s']. cbn [fst snd] in *. subst. reflexivity.
Qed.
(** Every legalization and every edge event that ends leaves the vectors as it found them: empty. *)
Theorem C53_vectors_are_empty_between_events : forall {A : Arith} (dbg : bool) (points : Points) (fuel : nat) (s : Sweeper),
  (forall t b, b_legalize dbg points fuel t (mkBuf s [] [] []) = (Done tt, b) -> b_queue b = [] /\ b_remap b = [] /\ b_ids b = []) /\
  (forall i p b, b_point_event dbg points fuel i p (mkBuf s [] [] []) = (Done tt, b) -> b_queue b = [] /\ b_remap b = [] /\ b_ids b = []) /\
  (forall e q b, b_edge_event dbg points fuel e q (mkBuf s [] [] []) = (Done tt, b) -> b_queue b = [] /\ b_remap b = [] /\ b_ids b = []).
Proof.
  intros A dbg points fuel s. fold (B s).
  assert (G : forall (mb : MB unit) m b, sim mb m -> mb (B s) = (Done tt, b) -> b_queue b = [] /\ b_remap b = [] /\ b_ids b = []).
  { intros mb m b H Q. destruct (H s) as (H1 & _ & H3). rewrite Q in *. cbn [fst snd] in *. symmetry in H1. rewrite (H3 tt H1). auto. }
  split; [|split].
  - intros t b Q. exact (G _ _ _ (sim_legalize dbg points fuel t) Q).
  - intros i p b Q. exact (G _ _ _ (sim_point_event dbg points fuel i p) Q).
  - intros e q b Q. exact (G _ _ _ (sim_edge_event dbg points fuel e q) Q).
Qed.

(** Non-vacuity: a polygon that is built and triangulated; and the emptiness matters: with a stale entry in one of
    the vectors the first legalization reads out of range. *)
Definition buf_case (remap : list tid) : res unit :=
  match builder_of unit mesh_src [] with
  | Done b => match run_init (c_points (build unit b)) with
              | Done s => fst (b_legalize false (c_points (build unit b)) 5 (Some 0) (mkBuf s [] remap []))
              | _ => OutOfFuel
              end
  | _ => OutOfFuel
  end.
Example buf_example :
  (exists b, builder_of unit mesh_src [] = Done b /\ exists t, fst (b_triangulate_with_observer false unit 2000 (build unit b) (fun n (_ : callback) => S n) 0) = Done t /\
     40 <= snd (b_triangulate_with_observer false unit 2000 (build unit b) (fun n (_ : callback) => S n) 0)) /\
  buf_case [] = Done tt /\ buf_case [Some 9] = Ub U_triangle.
Proof.
  split; [|split; vm_compute; reflexivity].
  assert (R : match builder_of unit mesh_src [] with
              | Done b => let '(r, n) := b_triangulate_with_observer false unit 2000 (build unit b) (fun n (_ : callback) => S n) 0 in
                          (match r with Done _ => true | _ => false end) && (40 <=? n)
              | _ => false end = true) by (vm_compute; reflexivity).
  destruct (builder_of unit mesh_src []) as [b| | |]; try discriminate. exists b. split; [reflexivity|].
  destruct (b_triangulate_with_observer false unit 2000 (build unit b) (fun n (_ : callback) => S n) 0) as [r n]. cbn [fst snd].
  apply andb_prop in R as [R1 R2]. destruct r as [t| | |]; try discriminate. exists t. split; [reflexivity|]. apply Nat.leb_le. exact R2.
Qed.
Print Assumptions C53_reused_buffers_are_invisible.
Print Assumptions C53_vectors_are_empty_between_events.
