(** * SweeperBuf: the sweep with its reused buffers and its lazy iterator

    Sweeper.v gives every legalization and every edge event fresh lists and
    evaluates the iterator over the points up front.  The code keeps three
    vectors in [Sweeper] (sweeper.rs:16-21), takes them out with [mem::take],
    works on whatever they contain, and gives them back after [drain(..)]; and it
    looks the points up one at a time.  Here the functions are modelled once more
    with the vectors in the state.  The functions that never touch the vectors
    are the ones of Sweeper.v, run on the rest of the state.  PropsBuf.v: the same
    results. *)
From Coq Require Import List Arith Bool.
From Verif Require Import Base Num Shape Utils Points Triangles Front Sweeper Cdt.
Import ListNotations.

Section S.
Context {A : Arith}.
Variable dbg : bool.

(** sweeper.rs:10-22 *)
Record Buffered := mkBuf {
  b_sw : Sweeper;
  b_queue : list tid;    (* legalize_task_queue, a stack: head is the top *)
  b_remap : list tid;    (* legalize_remap_tids, in push order *)
  b_ids : list tid       (* triangle_id_queue, in push order *)
}.
Definition MB (T : Type) := Buffered -> res T * Buffered.
Definition b_ret {T} (x : T) : MB T := fun b => (Done x, b).
Definition b_bind {T U} (m : MB T) (k : T -> MB U) : MB U :=
  fun b => match m b with
           | (Done x, b') => k x b'
           | (Panic p, b') => (Panic p, b')
           | (Ub u, b') => (Ub u, b')
           | (OutOfFuel, b') => (OutOfFuel, b')
           end.
(** a function that does not touch the vectors *)
Definition rest {T} (m : M T) : MB T :=
  fun b => let '(r, s) := m (b_sw b) in (r, mkBuf s (b_queue b) (b_remap b) (b_ids b)).
Definition b_lift {T} (r : res T) : MB T := rest (lift r).
Definition b_skip : MB unit := b_ret tt.
Definition b_fail_fuel {T} : MB T := rest fail_fuel.
Definition b_emit (e : event) : MB unit := rest (emit e).
Definition b_get_tris : MB TriangleStore := rest get_tris.
Definition b_get_front : MB AdvancingFront := rest get_front.
Definition b_put_tris (ts : TriangleStore) : MB unit := rest (put_tris ts).
Definition b_put_front (af : AdvancingFront) : MB unit := rest (put_front af).
(** [std::mem::take] leaves the empty vector behind; the assignment gives it back *)
Definition take_queue : MB (list tid) := fun b => (Done (b_queue b), mkBuf (b_sw b) [] (b_remap b) (b_ids b)).
Definition take_remap : MB (list tid) := fun b => (Done (b_remap b), mkBuf (b_sw b) (b_queue b) [] (b_ids b)).
Definition take_ids : MB (list tid) := fun b => (Done (b_ids b), mkBuf (b_sw b) (b_queue b) (b_remap b) []).
Definition give_queue (l : list tid) : MB unit := fun b => (Done tt, mkBuf (b_sw b) l (b_remap b) (b_ids b)).
Definition give_remap (l : list tid) : MB unit := fun b => (Done tt, mkBuf (b_sw b) (b_queue b) l (b_ids b)).
Definition give_ids (l : list tid) : MB unit := fun b => (Done tt, mkBuf (b_sw b) (b_queue b) (b_remap b) l).
(** [Vec::drain(..)]: the items, and what is left in the vector *)
Definition drain (l : list tid) : list tid * list tid := (l, []).

Notation "'do' x '<-' m ';;' k" := (b_bind m (fun x => k))
  (at level 200, x pattern, m at level 100, k at level 200, right associativity).
Notation "'do!' x '<-' r ';;' k" := (b_bind (b_lift r) (fun x => k))
  (at level 200, x pattern, r at level 100, k at level 200, right associativity).
Notation "m ';;;' k" := (b_bind m (fun _ => k)) (at level 199, right associativity).

Variable points : Points.
Notation pt := (Sweeper.pt points).

(** ** Legalization *)

(** sweeper.rs:198-254: both vectors as they are when the stack is empty *)
Fixpoint b_legalize_loop (fuel : nat) (queue remap : list tid) : MB (list tid * list tid) :=
  match fuel with
  | O => b_fail_fuel
  | S f =>
      match queue with
      | [] => b_ret (queue, remap)
      | t_id :: queue =>
          do r <- rest (legalize_edges dbg points ix_all t_id) ;;
          b_emit (EvLegalizeStep t_id) ;;;
          match r with
          | None => b_legalize_loop f queue remap
          | Some (ot_id, need_remap) =>
              b_legalize_loop f (ot_id :: t_id :: queue)
                (if need_remap then remap ++ [t_id; ot_id] else remap)
          end
      end
  end.
(** sweeper.rs:186-267 *)
Definition b_legalize (fuel : nat) (t_id : tid) : MB unit :=
  b_emit (EvWillLegalize t_id) ;;;
  do legalized <- take_remap ;;
  do queue <- take_queue ;;
  do (queue, legalized) <- b_legalize_loop fuel (t_id :: queue) (legalized ++ [t_id]) ;;
  let '(items, legalized) := drain legalized in
  rest (map_triangles dbg points items) ;;;
  give_queue queue ;;;
  give_remap legalized ;;;
  b_emit (EvLegalized t_id).

(** sweeper.rs:341-384 *)
Definition b_fill_one (fuel : nat) (id : NodeId) : MB (option FillOne) :=
  do af <- b_get_front ;;
  do! o <- get_node_with_id af id ;;
  do! node <- unwrap P_node_unwrap o ;;
  do! prev <- prev_node af node ;;
  match prev with
  | None => b_ret None
  | Some prev =>
      match next_node af node with
      | None => b_ret None
      | Some next =>
          let result := mkFill (get_node_id prev) (get_node_id next) in
          do ts <- b_get_tris ;;
          let '(new_triangle, ts) := ts_insert ts (tri_new (nr_pid prev) (nr_pid node) (nr_pid next)) in
          do! pt_ <- unwrap P_triangle_unwrap (nr_tri prev) ;;
          do! ts <- mark_neighbor dbg ts new_triangle (Some pt_) ;;
          do! nt_ <- unwrap P_triangle_unwrap (nr_tri node) ;;
          do! ts <- mark_neighbor dbg ts new_triangle (Some nt_) ;;
          b_put_tris ts ;;;
          do! af <- update_and_delete_by_index dbg af (nr_index prev) (nr_pid prev) new_triangle (nr_index node) ;;
          b_put_front af ;;;
          b_legalize fuel new_triangle ;;;
          b_ret (Some result)
      end
  end.

(** sweeper.rs:393-412 *)
Fixpoint b_fill_right_holes (fuel : nat) (id : NodeId) : MB unit :=
  match fuel with
  | O => b_fail_fuel
  | S f =>
      do af <- b_get_front ;;
      do! o <- locate_next_node af id ;;
      match o with
      | None => b_skip
      | Some next =>
          match next_node af next with
          | None => b_skip
          | Some _ =>
              do! stop <- should_fill af next ;;
              if stop then b_skip
              else
                let next_id := get_node_id next in
                do r <- b_fill_one f next_id ;;
                b_fill_right_holes f (match r with Some fo => fo_next fo | None => next_id end)
          end
      end
  end.

(** sweeper.rs:414-431 *)
Fixpoint b_fill_left_holes (fuel : nat) (id : NodeId) : MB unit :=
  match fuel with
  | O => b_fail_fuel
  | S f =>
      do af <- b_get_front ;;
      do! o <- locate_prev_node af id ;;
      match o with
      | None => b_skip
      | Some prev =>
          do! pp <- prev_node af prev ;;
          match pp with
          | None => b_skip
          | Some _ =>
              do! stop <- should_fill af prev ;;
              if stop then b_skip
              else
                let id := get_node_id prev in
                do _ <- b_fill_one f id ;;
                b_fill_left_holes f id
          end
      end
  end.

(** sweeper.rs:1169-1213 *)
Fixpoint b_fill_basin_req (fuel : nat) (node : NodeId) (b : Basin) : MB unit :=
  match fuel with
  | O => b_fail_fuel
  | S f =>
      if basin_completed b (ni_point node) then b_skip
      else
        do r <- b_fill_one f node ;;
        do! fo <- unwrap P_basin_expect r ;;
        let prev := fo_prev fo in
        let next := fo_next fo in
        if point_eq (ni_point prev) (b_left b) && point_eq (ni_point next) (b_right b) then b_skip
        else
          do af <- b_get_front ;;
          if point_eq (ni_point prev) (b_left b) then
            do! o <- get_node_with_id af next ;;
            do! next <- unwrap P_node_unwrap o ;;
            do! next_next <- unwrap P_node_unwrap (next_node af next) ;;
            do! o <- orient_2d dbg (ni_point node) (nr_point next) (nr_point next_next) ;;
            if is_cw o then b_skip else b_fill_basin_req f (get_node_id next) b
          else if point_eq (ni_point next) (b_right b) then
            do! o <- get_node_with_id af prev ;;
            do! prev <- unwrap P_node_unwrap o ;;
            do! pp <- prev_node af prev ;;
            match pp with
            | None => b_skip
            | Some prev_prev =>
                do! o <- orient_2d dbg (ni_point node) (nr_point prev) (nr_point prev_prev) ;;
                if is_ccw o then b_skip else b_fill_basin_req f (get_node_id prev) b
            end
          else if f_lt (py (ni_point prev)) (py (ni_point next)) then b_fill_basin_req f prev b
          else b_fill_basin_req f next b
  end.

(** sweeper.rs:1105-1167 *)
Definition b_fill_basin (fuel : nat) (id : NodeId) : MB unit :=
  do af <- b_get_front ;;
  do! o <- locate_next_node af id ;;
  match o with
  | None => b_skip
  | Some next =>
      match next_node af next with
      | None => b_skip
      | Some next_next =>
          do! o <- orient_2d dbg (ni_point id) (nr_point next) (nr_point next_next) ;;
          let lnode := if is_ccw o then next_next else next in
          do! bottom <- walk_bottom fuel af lnode ;;
          if nr_pid bottom =? nr_pid lnode then b_skip
          else
            do! rnode <- walk_right fuel af bottom ;;
            if nr_pid rnode =? nr_pid bottom then b_skip
            else
              let width := f_sub (px (nr_point rnode)) (px (nr_point lnode)) in
              let left_higher := f_lt (py (nr_point rnode)) (py (nr_point lnode)) in
              b_fill_basin_req fuel (get_node_id bottom)
                (mkBasin (nr_point lnode) (nr_point rnode) width left_higher)
      end
  end.

(** sweeper.rs:386-437 *)
Definition b_fill_advancing_front (fuel : nat) (node_point : Point) : MB unit :=
  do af <- b_get_front ;;
  do! o <- get_node af node_point ;;
  do! node <- unwrap P_node_unwrap o ;;
  let id := get_node_id node in
  b_fill_right_holes fuel id ;;;
  b_fill_left_holes fuel id ;;;
  do af <- b_get_front ;;
  do! b <- basin_angle_satisfy af id ;;
  if b then b_fill_basin fuel id else b_skip.

(** sweeper.rs:125-140, the first half of [point_event]: locate, insert,
    legalize.  Returns [node_id] and [node_point]. *)
Definition b_insert_point (fuel : nat) (point_id : pid) (point : Point) : MB (NodeId * Point) :=
  do af <- b_get_front ;;
  do! node <- locate_node dbg af point ;;
  let node_id := get_node_id node in
  do! next <- unwrap P_node_unwrap (next_node af node) ;;
  let node_point := nr_point node in
  do ts <- b_get_tris ;;
  let '(triangle, ts) := ts_insert ts (tri_new point_id (nr_pid node) (nr_pid next)) in
  do! node_triangle <- unwrap P_triangle_unwrap (nr_tri node) ;;
  do! ts <- mark_neighbor dbg ts (Some node_triangle) triangle ;;
  b_put_tris ts ;;;
  do! af <- front_insert dbg af point_id point triangle ;;
  b_put_front af ;;;
  b_legalize fuel triangle ;;;
  b_ret (node_id, node_point).

(** sweeper.rs:124-148 *)
Definition b_point_event (fuel : nat) (point_id : pid) (point : Point) : MB unit :=
  do (node_id, node_point) <- b_insert_point fuel point_id point ;;
  (if f_le (px point) (f_add (px node_point) f_eps) then
     do _ <- b_fill_one fuel node_id ;; b_skip
   else b_skip) ;;;
  b_fill_advancing_front fuel point.

(** sweeper.rs:644-676 *)
Fixpoint b_fill_right_concave_edge_event (fuel : nat) (edge : ConstrainedEdge) (id : NodeId) : MB unit :=
  match fuel with
  | O => b_fail_fuel
  | S f =>
      do af <- b_get_front ;;
      do! o <- locate_next_node af id ;;
      do! next <- unwrap P_node_unwrap o ;;
      let next_id := get_node_id next in
      do r <- b_fill_one f next_id ;;
      let next_id := match r with None => next_id | Some fo => fo_next fo end in
      if negb (ni_pid next_id =? p_id edge) then
        do! o <- orient_2d dbg (ce_q edge) (ni_point next_id) (ce_p edge) ;;
        if is_ccw o then
          do af <- b_get_front ;;
          do! o <- locate_next_node af next_id ;;
          do! next_next <- unwrap P_node_unwrap o ;;
          do! o <- orient_2d dbg (ni_point id) (ni_point next_id) (nr_point next_next) ;;
          if is_ccw o then b_fill_right_concave_edge_event f edge id else b_skip
        else b_skip
      else b_skip
  end.

(** sweeper.rs:680-711; [None] when nothing changed.  Line 698 passes
    [node_id], not the next node. *)
Fixpoint b_fill_right_convex_edge_event (fuel : nat) (edge : ConstrainedEdge) (id : NodeId) : MB (option unit) :=
  match fuel with
  | O => b_fail_fuel
  | S f =>
      do af <- b_get_front ;;
      do! o <- locate_next_node af id ;;
      do! next <- unwrap P_node_unwrap o ;;
      do! next_next <- unwrap P_node_unwrap (next_node af next) ;;
      match next_node af next_next with
      | None => b_ret None
      | Some nnn =>
          do! o <- orient_2d dbg (nr_point next) (nr_point next_next) (nr_point nnn) ;;
          if is_ccw o then
            b_fill_right_concave_edge_event f edge id ;;; b_ret (Some tt)
          else
            do! o <- orient_2d dbg (ce_q edge) (nr_point next_next) (ce_p edge) ;;
            if is_ccw o then b_fill_right_convex_edge_event f edge (get_node_id next)
            else b_ret (Some tt)
      end
  end.

(** sweeper.rs:614-641 (the result is ignored by every caller) *)
Fixpoint b_fill_right_below_edge_event (fuel : nat) (edge : ConstrainedEdge) (id : NodeId) : MB unit :=
  match fuel with
  | O => b_fail_fuel
  | S f =>
      if f_le (px (ce_p edge)) (px (ni_point id)) then b_skip
      else
        do af <- b_get_front ;;
        do! o <- get_node_with_id af id ;;
        do! node <- unwrap P_node_unwrap o ;;
        do! next <- unwrap P_node_unwrap (next_node af node) ;;
        do! next_next <- unwrap P_node_unwrap (next_node af next) ;;
        do! o <- orient_2d dbg (nr_point node) (nr_point next) (nr_point next_next) ;;
        if is_ccw o then b_fill_right_concave_edge_event f edge id
        else
          do r <- b_fill_right_convex_edge_event f edge id ;;
          match r with
          | None => b_skip
          | Some _ => b_fill_right_below_edge_event f edge id
          end
  end.

(** sweeper.rs:592-612 *)
Fixpoint b_fill_right_above_edge_event (fuel : nat) (edge : ConstrainedEdge) (id : NodeId) : MB unit :=
  match fuel with
  | O => b_fail_fuel
  | S f =>
      do af <- b_get_front ;;
      do! o <- locate_next_node af id ;;
      match o with
      | None => b_skip
      | Some next =>
          if f_le (px (ce_p edge)) (px (nr_point next)) then b_skip
          else
            do! o <- orient_2d dbg (ce_q edge) (nr_point next) (ce_p edge) ;;
            if is_ccw o then
              b_fill_right_below_edge_event f edge id ;;;
              b_fill_right_above_edge_event f edge id
            else b_fill_right_above_edge_event f edge (get_node_id next)
      end
  end.

(** sweeper.rs:793-822 *)
Fixpoint b_fill_left_concave_edge_event (fuel : nat) (edge : ConstrainedEdge) (id : NodeId) : MB unit :=
  match fuel with
  | O => b_fail_fuel
  | S f =>
      do af <- b_get_front ;;
      do! o <- locate_prev_node af id ;;
      do! prev <- unwrap P_node_unwrap o ;;
      let prev_id := get_node_id prev in
      do r <- b_fill_one f prev_id ;;
      let prev_id := match r with Some fo => fo_prev fo | None => prev_id end in
      if negb (ni_pid prev_id =? p_id edge) then
        do! o <- orient_2d dbg (ce_q edge) (ni_point prev_id) (ce_p edge) ;;
        if is_cw o then
          do af <- b_get_front ;;
          do! o <- get_node_with_id af prev_id ;;
          do! prev <- unwrap P_node_unwrap o ;;
          do! pp <- prev_node af prev ;;
          do! prev_prev <- unwrap P_node_unwrap pp ;;
          do! o <- orient_2d dbg (ni_point id) (nr_point prev) (nr_point prev_prev) ;;
          if is_cw o then b_fill_left_concave_edge_event f edge id else b_skip
        else b_skip
      else b_skip
  end.

(** sweeper.rs:760-791 *)
Fixpoint b_fill_left_convex_edge_event (fuel : nat) (edge : ConstrainedEdge) (id : NodeId) : MB (option unit) :=
  match fuel with
  | O => b_fail_fuel
  | S f =>
      do af <- b_get_front ;;
      do! o <- locate_prev_node af id ;;
      do! prev <- unwrap P_node_unwrap o ;;
      do! pp <- prev_node af prev ;;
      do! prev_prev <- unwrap P_node_unwrap pp ;;
      do! ppp <- prev_node af prev_prev ;;
      match ppp with
      | None => b_ret None
      | Some ppp =>
          do! o <- orient_2d dbg (nr_point prev) (nr_point prev_prev) (nr_point ppp) ;;
          if is_cw o then
            b_fill_left_concave_edge_event f edge (get_node_id prev) ;;; b_ret (Some tt)
          else
            do! o <- orient_2d dbg (ce_q edge) (nr_point prev_prev) (ce_p edge) ;;
            if is_cw o then b_fill_left_convex_edge_event f edge (get_node_id prev)
            else b_ret (Some tt)
      end
  end.

(** sweeper.rs:734-756 *)
Fixpoint b_fill_left_below_edge_event (fuel : nat) (edge : ConstrainedEdge) (id : NodeId) : MB unit :=
  match fuel with
  | O => b_fail_fuel
  | S f =>
      if f_lt (px (ce_p edge)) (px (ni_point id)) then
        do af <- b_get_front ;;
        do! o <- locate_prev_node af id ;;
        do! prev <- unwrap P_node_unwrap o ;;
        do! pp <- prev_node af prev ;;
        do! prev_prev <- unwrap P_node_unwrap pp ;;
        do! o <- orient_2d dbg (ni_point id) (nr_point prev) (nr_point prev_prev) ;;
        if is_cw o then b_fill_left_concave_edge_event f edge id
        else
          do r <- b_fill_left_convex_edge_event f edge id ;;
          match r with
          | None => b_skip
          | Some _ => b_fill_left_below_edge_event f edge id
          end
      else b_skip
  end.

(** sweeper.rs:713-732 *)
Fixpoint b_fill_left_above_edge_event (fuel : nat) (edge : ConstrainedEdge) (id : NodeId) : MB unit :=
  match fuel with
  | O => b_fail_fuel
  | S f =>
      do af <- b_get_front ;;
      do! o <- locate_prev_node af id ;;
      match o with
      | None => b_skip
      | Some prev =>
          if f_le (px (nr_point prev)) (px (ce_p edge)) then b_skip
          else
            do! o <- orient_2d dbg (ce_q edge) (nr_point prev) (ce_p edge) ;;
            if is_cw o then
              b_fill_left_below_edge_event f edge id ;;;
              b_fill_left_above_edge_event f edge id
            else b_fill_left_above_edge_event f edge (get_node_id prev)
      end
  end.

(** sweeper.rs:579-590 *)
Definition b_fill_edge_event (fuel : nat) (edge : ConstrainedEdge) (id : NodeId) : MB unit :=
  if ce_right edge then b_fill_right_above_edge_event fuel edge id
  else b_fill_left_above_edge_event fuel edge id.

(** sweeper.rs:556-558 *)
Fixpoint b_legalize_all (fuel : nat) (l : list tid) : MB unit :=
  match l with
  | [] => b_skip
  | t :: l' => b_legalize fuel t ;;; b_legalize_all fuel l'
  end.

(** sweeper.rs:512-560; [edge_event_process] pushes onto the vector it is given *)
Definition b_edge_event (fuel : nat) (edge : Edge) (q : Point) : MB unit :=
  do! p <- pt (e_p edge) ;;
  let ce := mkCE edge p q (f_lt (px q) (px p)) in
  do node <- rest (node_with_cache q) ;;
  do! triangle_id <- unwrap P_triangle_unwrap (nr_tri node) ;;
  let node_id := get_node_id node in
  do marked <- rest (try_mark_edge_for_triangle (e_p edge) (e_q edge) (Some triangle_id)) ;;
  if (marked : bool) then b_skip
  else
    b_fill_edge_event fuel ce node_id ;;;
    do node <- rest (node_with_cache q) ;;
    do! triangle <- unwrap P_triangle_unwrap (nr_tri node) ;;
    do ids <- take_ids ;;
    do ids <- rest (edge_event_process dbg points fuel (e_p edge) (e_q edge) ce (Some triangle) (e_q edge) ids) ;;
    let '(items, ids) := drain ids in
    b_legalize_all fuel items ;;;
    give_ids ids.

(** sweeper.rs:50-55 *)
Fixpoint b_edges_loop (fuel : nat) (q_id : pid) (q : Point) (l : list pid) : MB unit :=
  match l with
  | [] => b_skip
  | p :: l' =>
      let edge := mkEdge p q_id in
      b_edge_event fuel edge q ;;;
      b_emit (EvEdge edge) ;;;
      b_edges_loop fuel q_id q l'
  end.

(** points.rs:203-213: what the iterator does when the loop asks for the next item *)
Definition next_item (id : pid) : res (pid * Point * PointEdges) :=
  let! p := get_unchecked U_point (ps_points points) id in
  let! e := get_unchecked U_point (ps_edges points) id in
  Done (id, p, e).
(** sweeper.rs:45-58, the points looked up when their turn comes *)
Fixpoint b_sweep_loop (fuel : nat) (l : list pid) : MB unit :=
  match l with
  | [] => b_skip
  | id :: l' =>
      do! (point_id, point, edges) <- next_item id ;;
      b_emit (EvEnterPoint point_id) ;;;
      b_point_event fuel point_id point ;;;
      b_emit (EvExitPoint point_id) ;;;
      b_edges_loop fuel point_id point (edges_list edges) ;;;
      (if dbg then
         do ts <- b_get_tris ;;
         do! ok <- verify_triangles dbg points ts ;;
         do! _ <- rassert P_dbg_verify ok ;; b_skip
       else b_skip) ;;;
      b_sweep_loop fuel l'
  end.
Definition b_sweep_points (fuel : nat) : MB unit :=
  b_sweep_loop fuel (skipn 1 (ps_y_sorted points)).

(** cdt.rs:242-249 *)
Definition b_run_body (fuel : nat) : MB unit :=
  b_sweep_points fuel ;;;
  b_emit EvSweepDone ;;;
  rest (finalize_polygon fuel) ;;;
  b_emit EvFinalized.
(** sweeper.rs:24-39: the vectors are created empty; cdt.rs:228-249 *)
Definition b_run (fuel : nat) : res unit * Buffered :=
  match run_init points with
  | Done s => b_run_body fuel (mkBuf s [] [] [])
  | Panic p => (Panic p, mkBuf empty_sweeper [] [] [])
  | Ub u => (Ub u, mkBuf empty_sweeper [] [] [])
  | OutOfFuel => (OutOfFuel, mkBuf empty_sweeper [] [] [])
  end.
End S.

Section T.
Context {A : Arith}.
Variable dbg : bool.
Variable PD : Type.
(** cdt.rs:227-262 *)
Definition b_triangulate_with_observer {O} (fuel : nat) (c : @CDT A PD) (obs : O -> callback -> O) (o : O)
  : res (Triangles PD) * O :=
  let '(r, b) := b_run dbg (c_points c) fuel in
  (let! _ := r in
   Done (mkTriangles PD (c_points c) (c_data c) (s_tris (b_sw b)) (s_result (b_sw b)) 0),
   fold_left obs (rev (s_trace (b_sw b))) o).
End T.
