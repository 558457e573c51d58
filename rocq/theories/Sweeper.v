(** * Sweeper: model of src/sweeper.rs

    Simplifications, once for the file:
    - the three reusable buffers of [Sweeper] (sweeper.rs:16-21) are taken
      empty at the start of [legalize]/[edge_event] and given back drained,
      so they are modelled as fresh local lists;
    - a [Vec] used as a stack is a list whose head is the top;
    - the observer receives [&Sweeper] and cannot change it; every callback
      is recorded, with the store, the front and the result it is shown, in
      [s_trace] (newest first);
    - each loop or recursion takes [fuel] and yields [OutOfFuel] at 0. *)
From Coq Require Import List Arith Bool.
From Verif Require Import Base Num Shape Utils Points Triangles Front.
Import ListNotations.

(** cdt.rs:10-45: the observer's methods *)
Inductive event :=
| EvEnterPoint (p : pid)
| EvExitPoint (p : pid)
| EvEdge (e : Edge)
| EvSweepDone
| EvFinalized
| EvWillLegalize (t : tid)
| EvLegalizeStep (t : tid)
| EvRotated (t ot : tid)
| EvLegalized (t : tid).

Section S.
Context {A : Arith}.
Variable dbg : bool.

Record callback := mkCb {
  cb_event : event;
  cb_tris : TriangleStore;
  cb_front : AdvancingFront;
  cb_result : list tid
}.

(** sweeper.rs:10-22; [points] is immutable and a section variable below *)
Record Sweeper := mkSw {
  s_tris : TriangleStore;
  s_front : AdvancingFront;
  s_result : list tid;
  s_trace : list callback
}.

(** A computation returns its outcome together with the state reached, so
    that the callbacks made before a failure are not lost.  (On a failure the
    state is the one after the last completed update; only its trace is ever
    looked at.) *)
Definition M (T : Type) := Sweeper -> res T * Sweeper.
Definition ret {T} (x : T) : M T := fun s => (Done x, s).
Definition bind {T U} (m : M T) (k : T -> M U) : M U :=
  fun s => match m s with
           | (Done x, s') => k x s'
           | (Panic p, s') => (Panic p, s')
           | (Ub u, s') => (Ub u, s')
           | (OutOfFuel, s') => (OutOfFuel, s')
           end.
Definition lift {T} (r : res T) : M T := fun s => (r, s).
(** compute from the current store / front *)
Definition get_tris : M TriangleStore := fun s => (Done (s_tris s), s).
Definition get_front : M AdvancingFront := fun s => (Done (s_front s), s).
Definition put_tris (ts : TriangleStore) : M unit :=
  fun s => (Done tt, mkSw ts (s_front s) (s_result s) (s_trace s)).
Definition put_front (af : AdvancingFront) : M unit :=
  fun s => (Done tt, mkSw (s_tris s) af (s_result s) (s_trace s)).
Definition push_result (t : tid) : M unit :=
  fun s => (Done tt, mkSw (s_tris s) (s_front s) (s_result s ++ [t]) (s_trace s)).
Definition emit (e : event) : M unit :=
  fun s => (Done tt, mkSw (s_tris s) (s_front s) (s_result s)
                       (mkCb e (s_tris s) (s_front s) (s_result s) :: s_trace s)).
Definition fail_fuel {T} : M T := fun s => (OutOfFuel, s).
Definition panic {T} (p : psite) : M T := fun s => (Panic p, s).

Notation "'do' x '<-' m ';;' k" := (bind m (fun x => k))
  (at level 200, x pattern, m at level 100, k at level 200, right associativity).
Notation "'do!' x '<-' r ';;' k" := (bind (lift r) (fun x => k))
  (at level 200, x pattern, r at level 100, k at level 200, right associativity).
Notation "m ';;;' k" := (bind m (fun _ => k)) (at level 199, right associativity).

Definition skip : M unit := ret tt.

Variable points : Points.

(** [id.get(&self.points)] (points.rs:26-28) *)
Definition pt (id : pid) : res Point := get_point_uncheck points id.

(** ** Legalization *)

(** sweeper.rs:323-334 *)
Fixpoint map_nodes_loop (l : list ix) (t : InnerTriangle) (t_id : tid) : M unit :=
  match l with
  | [] => skip
  | i :: l' =>
      (if tid_invalid (get3 (t_neighbors t) i) then
         do! cw <- point_cw t (get3 (t_points t) i) ;;
         do! point <- pt cw ;;
         do af <- get_front ;;
         do! af' <- update_triangle af point t_id ;;
         put_front af'
       else skip) ;;;
      map_nodes_loop l' t t_id
  end.
Definition map_triangle_to_nodes (t_id : tid) : M unit :=
  do ts <- get_tris ;;
  do! t <- ts_get_unchecked dbg ts t_id ;;
  map_nodes_loop ix_all t t_id.

(** sweeper.rs:270-320 *)
Definition rotate_triangle_pair (t_id : tid) (p : pid) (ot_id : tid) (op : pid) : M bool :=
  do ts <- get_tris ;;
  do! _ <- rassert P_get_mut_two (get_mut_two_ok ts t_id ot_id) ;;
  do! t <- ts_get_mut_unchecked ts t_id ;;
  do! ot <- ts_get_mut_unchecked ts ot_id ;;
  do! n1 <- neighbor_ccw t p ;;
  do! n2 <- neighbor_cw t p ;;
  do! n3 <- neighbor_ccw ot op ;;
  do! n4 <- neighbor_cw ot op ;;
  do! ea1 <- edge_attr_ccw t p ;;
  do! ea2 <- edge_attr_cw t p ;;
  do! ea3 <- edge_attr_ccw ot op ;;
  do! ea4 <- edge_attr_cw ot op ;;
  do! t <- rotate_cw t p op ;;
  do! ot <- rotate_cw ot op p ;;
  do! t <- set_edge_attr_cw t p ea2 ;;
  do! t <- set_edge_attr_ccw t op ea3 ;;
  do! ot <- set_edge_attr_ccw ot p ea1 ;;
  do! ot <- set_edge_attr_cw ot op ea4 ;;
  let t := clear_neighbors t in
  let ot := clear_neighbors ot in
  do! (t, ot) <- mark_neighbor_for_two_mut dbg t_id ot_id t ot ;;
  let ts := ts_put (ts_put ts t_id t) ot_id ot in
  do! _ <- get_mut_six_ok ts t_id ot_id n1 n2 n3 n4 ;;
  do! ts <- (if tid_invalid n2 then Done ts else mark_neighbor_cells dbg U_triangle_raw ts t_id n2) ;;
  do! ts <- (if tid_invalid n3 then Done ts else mark_neighbor_cells dbg U_triangle_raw ts t_id n3) ;;
  do! ts <- (if tid_invalid n1 then Done ts else mark_neighbor_cells dbg U_triangle_raw ts ot_id n1) ;;
  do! ts <- (if tid_invalid n4 then Done ts else mark_neighbor_cells dbg U_triangle_raw ts ot_id n4) ;;
  put_tris ts ;;;
  ret (tid_invalid n1 || tid_invalid n2 || tid_invalid n3 || tid_invalid n4).

(** sweeper.rs:228-237 *)
Definition set_delaunay_pair (t_id ot_id : tid) : M unit :=
  do ts <- get_tris ;;
  do! _ <- rassert P_get_mut_two (get_mut_two_ok ts t_id ot_id) ;;
  do! t <- ts_get_mut_unchecked ts t_id ;;
  do! ot <- ts_get_mut_unchecked ts ot_id ;;
  do! (t_idx, ot_idx) <- unwrap P_common_edge_unwrap (common_edge_index t ot) ;;
  put_tris (ts_put (ts_put ts t_id (tri_set_delaunay t t_idx true)) ot_id
              (tri_set_delaunay ot ot_idx true)).

(** The body of [for point_idx in 0..3] (sweeper.rs:199-251).  Returns the
    triangles to push on the two queues: [None] when no edge was rotated,
    [Some (ot_id, need_remap)] when the loop broke after a rotation. *)
Fixpoint legalize_edges (l : list ix) (t_id : tid) : M (option (tid * bool)) :=
  match l with
  | [] => ret None
  | i :: l' =>
      do ts <- get_tris ;;
      do! t <- ts_get_unchecked dbg ts t_id ;;
      if tri_is_constrained t i || tri_is_delaunay t i then legalize_edges l' t_id
      else
        let ot_id := get3 (t_neighbors t) i in
        if tid_invalid ot_id then legalize_edges l' t_id
        else
          do! ot <- ts_get_unchecked dbg ts ot_id ;;
          let p := get3 (t_points t) i in
          do! op <- opposite_point ot t p ;;
          do! pa <- pt p ;;
          do! ccw <- point_ccw t p ;;
          do! pb <- pt ccw ;;
          do! cw <- point_cw t p ;;
          do! pc <- pt cw ;;
          do! pd <- pt op ;;
          if in_circle pa pb pc pd then
            emit (EvRotated t_id ot_id) ;;;
            do need_remap <- rotate_triangle_pair t_id p ot_id op ;;
            set_delaunay_pair t_id ot_id ;;;
            ret (Some (ot_id, need_remap))
          else legalize_edges l' t_id
  end.

(** sweeper.rs:198-254; returns [legalized_triangles] (in push order) *)
Fixpoint legalize_loop (fuel : nat) (queue remap : list tid) : M (list tid) :=
  match fuel with
  | O => fail_fuel
  | S f =>
      match queue with
      | [] => ret remap
      | t_id :: queue =>
          do r <- legalize_edges ix_all t_id ;;
          emit (EvLegalizeStep t_id) ;;;
          match r with
          | None => legalize_loop f queue remap
          | Some (ot_id, need_remap) =>
              legalize_loop f (ot_id :: t_id :: queue)
                (if need_remap then remap ++ [t_id; ot_id] else remap)
          end
      end
  end.

Fixpoint map_triangles (l : list tid) : M unit :=
  match l with
  | [] => skip
  | t :: l' => map_triangle_to_nodes t ;;; map_triangles l'
  end.

(** sweeper.rs:186-267 *)
Definition legalize (fuel : nat) (t_id : tid) : M unit :=
  emit (EvWillLegalize t_id) ;;;
  do remap <- legalize_loop fuel [t_id] [t_id] ;;
  map_triangles remap ;;;
  emit (EvLegalized t_id).

(** ** Filling *)

(** sweeper.rs:473-476 *)
Record FillOne := mkFill { fo_prev : NodeId; fo_next : NodeId }.

(** sweeper.rs:341-384 *)
Definition fill_one (fuel : nat) (id : NodeId) : M (option FillOne) :=
  do af <- get_front ;;
  do! o <- get_node_with_id af id ;;
  do! node <- unwrap P_node_unwrap o ;;
  do! prev <- prev_node af node ;;
  match prev with
  | None => ret None
  | Some prev =>
      match next_node af node with
      | None => ret None
      | Some next =>
          let result := mkFill (get_node_id prev) (get_node_id next) in
          do ts <- get_tris ;;
          let '(new_triangle, ts) := ts_insert ts (tri_new (nr_pid prev) (nr_pid node) (nr_pid next)) in
          do! pt_ <- unwrap P_triangle_unwrap (nr_tri prev) ;;
          do! ts <- mark_neighbor dbg ts new_triangle (Some pt_) ;;
          do! nt_ <- unwrap P_triangle_unwrap (nr_tri node) ;;
          do! ts <- mark_neighbor dbg ts new_triangle (Some nt_) ;;
          put_tris ts ;;;
          do! af <- update_and_delete_by_index dbg af (nr_index prev) (nr_pid prev) new_triangle (nr_index node) ;;
          put_front af ;;;
          legalize fuel new_triangle ;;;
          ret (Some result)
      end
  end.

(** sweeper.rs:439-470.  Note the sense of the result: [true] makes the
    caller stop. *)
Definition should_fill (af : AdvancingFront) (node : NodeRef) : res bool :=
  let! next := unwrap P_node_unwrap (next_node af node) in
  let! prev := let! o := prev_node af node in unwrap P_node_unwrap o in
  let angle := angle_new (nr_point node) (nr_point next) (nr_point prev) in
  if is_negative angle then Done true
  else if negb (exceeds_90_degree angle) then Done false
  else
    let nn := match next_node af next with
              | Some next_next =>
                  between_0_to_90_degree (angle_new (nr_point node) (nr_point next_next) (nr_point prev))
              | None => false
              end in
    if nn then Done false
    else
      let! pp := prev_node af prev in
      match pp with
      | Some prev_prev =>
          if between_0_to_90_degree (angle_new (nr_point node) (nr_point next) (nr_point prev_prev))
          then Done false else Done true
      | None => Done true
      end.

(** sweeper.rs:393-412 *)
Fixpoint fill_right_holes (fuel : nat) (id : NodeId) : M unit :=
  match fuel with
  | O => fail_fuel
  | S f =>
      do af <- get_front ;;
      do! o <- locate_next_node af id ;;
      match o with
      | None => skip
      | Some next =>
          match next_node af next with
          | None => skip
          | Some _ =>
              do! stop <- should_fill af next ;;
              if stop then skip
              else
                let next_id := get_node_id next in
                do r <- fill_one f next_id ;;
                fill_right_holes f (match r with Some fo => fo_next fo | None => next_id end)
          end
      end
  end.

(** sweeper.rs:414-431 *)
Fixpoint fill_left_holes (fuel : nat) (id : NodeId) : M unit :=
  match fuel with
  | O => fail_fuel
  | S f =>
      do af <- get_front ;;
      do! o <- locate_prev_node af id ;;
      match o with
      | None => skip
      | Some prev =>
          do! pp <- prev_node af prev ;;
          match pp with
          | None => skip
          | Some _ =>
              do! stop <- should_fill af prev ;;
              if stop then skip
              else
                let id := get_node_id prev in
                do _ <- fill_one f id ;;
                fill_left_holes f id
          end
      end
  end.

(** ** Basins *)

(** sweeper.rs:1057-1062 *)
Record Basin := mkBasin { b_left : Point; b_right : Point; b_width : num; b_left_higher : bool }.

(** sweeper.rs:1065-1073 *)
Definition is_shallow (b : Basin) (p : Point) : bool :=
  let height := if b_left_higher b then f_sub (py (b_left b)) (py p)
                else f_sub (py (b_right b)) (py p) in
  f_lt height (b_width b).

(** sweeper.rs:1075-1081 *)
Definition basin_completed (b : Basin) (p : Point) : bool :=
  if f_le (px (b_right b)) (px p) || f_le (px p) (px (b_left b)) then true
  else is_shallow b p.

(** sweeper.rs:1086-1101 *)
Definition basin_angle_satisfy (af : AdvancingFront) (id : NodeId) : res bool :=
  let! o := locate_next_node af id in
  match o with
  | None => Done false
  | Some next =>
      match next_node af next with
      | None => Done false
      | Some next_next =>
          let ax := f_sub (px (ni_point id)) (px (nr_point next_next)) in
          let ay := f_sub (py (ni_point id)) (py (nr_point next_next)) in
          Done (if f_lt f_zero ax then f_lt ay (f_mul f_neg1 ax)
                else f_lt (f_mul f_neg1 ax) ay)
      end
  end.

(** sweeper.rs:1124-1131 and 1139-1146: walk right while the next node is
    not higher / strictly higher.  The walk moves one index to the right each
    time, so the length of the front bounds it. *)
Fixpoint walk_bottom (fuel : nat) (af : AdvancingFront) (n : NodeRef) : res NodeRef :=
  match fuel with
  | O => OutOfFuel
  | S f =>
      match next_node af n with
      | None => Done n
      | Some m => if f_le (py (nr_point m)) (py (nr_point n)) then walk_bottom f af m else Done n
      end
  end.
Fixpoint walk_right (fuel : nat) (af : AdvancingFront) (n : NodeRef) : res NodeRef :=
  match fuel with
  | O => OutOfFuel
  | S f =>
      match next_node af n with
      | None => Done n
      | Some m => if f_lt (py (nr_point n)) (py (nr_point m)) then walk_right f af m else Done n
      end
  end.

(** sweeper.rs:1169-1213 *)
Fixpoint fill_basin_req (fuel : nat) (node : NodeId) (b : Basin) : M unit :=
  match fuel with
  | O => fail_fuel
  | S f =>
      if basin_completed b (ni_point node) then skip
      else
        do r <- fill_one f node ;;
        do! fo <- unwrap P_basin_expect r ;;
        let prev := fo_prev fo in
        let next := fo_next fo in
        if point_eq (ni_point prev) (b_left b) && point_eq (ni_point next) (b_right b) then skip
        else
          do af <- get_front ;;
          if point_eq (ni_point prev) (b_left b) then
            do! o <- get_node_with_id af next ;;
            do! next <- unwrap P_node_unwrap o ;;
            do! next_next <- unwrap P_node_unwrap (next_node af next) ;;
            do! o <- orient_2d dbg (ni_point node) (nr_point next) (nr_point next_next) ;;
            if is_cw o then skip else fill_basin_req f (get_node_id next) b
          else if point_eq (ni_point next) (b_right b) then
            do! o <- get_node_with_id af prev ;;
            do! prev <- unwrap P_node_unwrap o ;;
            do! pp <- prev_node af prev ;;
            match pp with
            | None => skip
            | Some prev_prev =>
                do! o <- orient_2d dbg (ni_point node) (nr_point prev) (nr_point prev_prev) ;;
                if is_ccw o then skip else fill_basin_req f (get_node_id prev) b
            end
          else if f_lt (py (ni_point prev)) (py (ni_point next)) then fill_basin_req f prev b
          else fill_basin_req f next b
  end.

(** sweeper.rs:1105-1167 *)
Definition fill_basin (fuel : nat) (id : NodeId) : M unit :=
  do af <- get_front ;;
  do! o <- locate_next_node af id ;;
  match o with
  | None => skip
  | Some next =>
      match next_node af next with
      | None => skip
      | Some next_next =>
          do! o <- orient_2d dbg (ni_point id) (nr_point next) (nr_point next_next) ;;
          let lnode := if is_ccw o then next_next else next in
          do! bottom <- walk_bottom fuel af lnode ;;
          if nr_pid bottom =? nr_pid lnode then skip
          else
            do! rnode <- walk_right fuel af bottom ;;
            if nr_pid rnode =? nr_pid bottom then skip
            else
              let width := f_sub (px (nr_point rnode)) (px (nr_point lnode)) in
              let left_higher := f_lt (py (nr_point rnode)) (py (nr_point lnode)) in
              fill_basin_req fuel (get_node_id bottom)
                (mkBasin (nr_point lnode) (nr_point rnode) width left_higher)
      end
  end.

(** sweeper.rs:386-437 *)
Definition fill_advancing_front (fuel : nat) (node_point : Point) : M unit :=
  do af <- get_front ;;
  do! o <- get_node af node_point ;;
  do! node <- unwrap P_node_unwrap o ;;
  let id := get_node_id node in
  fill_right_holes fuel id ;;;
  fill_left_holes fuel id ;;;
  do af <- get_front ;;
  do! b <- basin_angle_satisfy af id ;;
  if b then fill_basin fuel id else skip.

(** ** Point events *)

(** sweeper.rs:125-140, the first half of [point_event]: locate, insert,
    legalize.  Returns [node_id] and [node_point]. *)
Definition insert_point (fuel : nat) (point_id : pid) (point : Point) : M (NodeId * Point) :=
  do af <- get_front ;;
  do! node <- locate_node dbg af point ;;
  let node_id := get_node_id node in
  do! next <- unwrap P_node_unwrap (next_node af node) ;;
  let node_point := nr_point node in
  do ts <- get_tris ;;
  let '(triangle, ts) := ts_insert ts (tri_new point_id (nr_pid node) (nr_pid next)) in
  do! node_triangle <- unwrap P_triangle_unwrap (nr_tri node) ;;
  do! ts <- mark_neighbor dbg ts (Some node_triangle) triangle ;;
  put_tris ts ;;;
  do! af <- front_insert dbg af point_id point triangle ;;
  put_front af ;;;
  legalize fuel triangle ;;;
  ret (node_id, node_point).

(** sweeper.rs:124-148 *)
Definition point_event (fuel : nat) (point_id : pid) (point : Point) : M unit :=
  do (node_id, node_point) <- insert_point fuel point_id point ;;
  (if f_le (px point) (f_add (px node_point) f_eps) then
     do _ <- fill_one fuel node_id ;; skip
   else skip) ;;;
  fill_advancing_front fuel point.

(** ** Edge events *)

(** sweeper.rs:479-485 *)
Record ConstrainedEdge := mkCE { ce_edge : Edge; ce_p : Point; ce_q : Point; ce_right : bool }.
(** sweeper.rs:488-494 *)
Definition p_id (e : ConstrainedEdge) : pid := e_p (ce_edge e).
Definition q_id (e : ConstrainedEdge) : pid := e_q (ce_edge e).
(** sweeper.rs:496-507 *)
Definition with_q (e : ConstrainedEdge) (q : pid) : res ConstrainedEdge :=
  let! q_point := pt q in
  Done (mkCE (mkEdge (e_p (ce_edge e)) q) (ce_p e) q_point (f_lt (px q_point) (px (ce_p e)))).

(** sweeper.rs:564-577 *)
Definition try_mark_edge_for_triangle (p q : pid) (t_id : tid) : M bool :=
  do ts <- get_tris ;;
  do! t <- ts_get_mut_unchecked ts t_id ;;
  match edge_index t p q with
  | None => ret false
  | Some index =>
      let t := tri_set_constrained t index true in
      let ts := ts_put ts t_id t in
      put_tris ts ;;;
      let n := get3 (t_neighbors t) index in
      if tid_invalid n then ret true
      else
        do! ot <- ts_get_mut_unchecked ts n ;;
        do! index <- neighbor_index ot t_id ;;
        put_tris (ts_put ts n (tri_set_constrained ot index true)) ;;;
        ret true
  end.

(** sweeper.rs:644-676 *)
Fixpoint fill_right_concave_edge_event (fuel : nat) (edge : ConstrainedEdge) (id : NodeId) : M unit :=
  match fuel with
  | O => fail_fuel
  | S f =>
      do af <- get_front ;;
      do! o <- locate_next_node af id ;;
      do! next <- unwrap P_node_unwrap o ;;
      let next_id := get_node_id next in
      do r <- fill_one f next_id ;;
      let next_id := match r with None => next_id | Some fo => fo_next fo end in
      if negb (ni_pid next_id =? p_id edge) then
        do! o <- orient_2d dbg (ce_q edge) (ni_point next_id) (ce_p edge) ;;
        if is_ccw o then
          do af <- get_front ;;
          do! o <- locate_next_node af next_id ;;
          do! next_next <- unwrap P_node_unwrap o ;;
          do! o <- orient_2d dbg (ni_point id) (ni_point next_id) (nr_point next_next) ;;
          if is_ccw o then fill_right_concave_edge_event f edge id else skip
        else skip
      else skip
  end.

(** sweeper.rs:680-711; [None] when nothing changed.  Line 698 passes
    [node_id], not the next node. *)
Fixpoint fill_right_convex_edge_event (fuel : nat) (edge : ConstrainedEdge) (id : NodeId) : M (option unit) :=
  match fuel with
  | O => fail_fuel
  | S f =>
      do af <- get_front ;;
      do! o <- locate_next_node af id ;;
      do! next <- unwrap P_node_unwrap o ;;
      do! next_next <- unwrap P_node_unwrap (next_node af next) ;;
      match next_node af next_next with
      | None => ret None
      | Some nnn =>
          do! o <- orient_2d dbg (nr_point next) (nr_point next_next) (nr_point nnn) ;;
          if is_ccw o then
            fill_right_concave_edge_event f edge id ;;; ret (Some tt)
          else
            do! o <- orient_2d dbg (ce_q edge) (nr_point next_next) (ce_p edge) ;;
            if is_ccw o then fill_right_convex_edge_event f edge (get_node_id next)
            else ret (Some tt)
      end
  end.

(** sweeper.rs:614-641 (the result is ignored by every caller) *)
Fixpoint fill_right_below_edge_event (fuel : nat) (edge : ConstrainedEdge) (id : NodeId) : M unit :=
  match fuel with
  | O => fail_fuel
  | S f =>
      if f_le (px (ce_p edge)) (px (ni_point id)) then skip
      else
        do af <- get_front ;;
        do! o <- get_node_with_id af id ;;
        do! node <- unwrap P_node_unwrap o ;;
        do! next <- unwrap P_node_unwrap (next_node af node) ;;
        do! next_next <- unwrap P_node_unwrap (next_node af next) ;;
        do! o <- orient_2d dbg (nr_point node) (nr_point next) (nr_point next_next) ;;
        if is_ccw o then fill_right_concave_edge_event f edge id
        else
          do r <- fill_right_convex_edge_event f edge id ;;
          match r with
          | None => skip
          | Some _ => fill_right_below_edge_event f edge id
          end
  end.

(** sweeper.rs:592-612 *)
Fixpoint fill_right_above_edge_event (fuel : nat) (edge : ConstrainedEdge) (id : NodeId) : M unit :=
  match fuel with
  | O => fail_fuel
  | S f =>
      do af <- get_front ;;
      do! o <- locate_next_node af id ;;
      match o with
      | None => skip
      | Some next =>
          if f_le (px (ce_p edge)) (px (nr_point next)) then skip
          else
            do! o <- orient_2d dbg (ce_q edge) (nr_point next) (ce_p edge) ;;
            if is_ccw o then
              fill_right_below_edge_event f edge id ;;;
              fill_right_above_edge_event f edge id
            else fill_right_above_edge_event f edge (get_node_id next)
      end
  end.

(** sweeper.rs:793-822 *)
Fixpoint fill_left_concave_edge_event (fuel : nat) (edge : ConstrainedEdge) (id : NodeId) : M unit :=
  match fuel with
  | O => fail_fuel
  | S f =>
      do af <- get_front ;;
      do! o <- locate_prev_node af id ;;
      do! prev <- unwrap P_node_unwrap o ;;
      let prev_id := get_node_id prev in
      do r <- fill_one f prev_id ;;
      let prev_id := match r with Some fo => fo_prev fo | None => prev_id end in
      if negb (ni_pid prev_id =? p_id edge) then
        do! o <- orient_2d dbg (ce_q edge) (ni_point prev_id) (ce_p edge) ;;
        if is_cw o then
          do af <- get_front ;;
          do! o <- get_node_with_id af prev_id ;;
          do! prev <- unwrap P_node_unwrap o ;;
          do! pp <- prev_node af prev ;;
          do! prev_prev <- unwrap P_node_unwrap pp ;;
          do! o <- orient_2d dbg (ni_point id) (nr_point prev) (nr_point prev_prev) ;;
          if is_cw o then fill_left_concave_edge_event f edge id else skip
        else skip
      else skip
  end.

(** sweeper.rs:760-791 *)
Fixpoint fill_left_convex_edge_event (fuel : nat) (edge : ConstrainedEdge) (id : NodeId) : M (option unit) :=
  match fuel with
  | O => fail_fuel
  | S f =>
      do af <- get_front ;;
      do! o <- locate_prev_node af id ;;
      do! prev <- unwrap P_node_unwrap o ;;
      do! pp <- prev_node af prev ;;
      do! prev_prev <- unwrap P_node_unwrap pp ;;
      do! ppp <- prev_node af prev_prev ;;
      match ppp with
      | None => ret None
      | Some ppp =>
          do! o <- orient_2d dbg (nr_point prev) (nr_point prev_prev) (nr_point ppp) ;;
          if is_cw o then
            fill_left_concave_edge_event f edge (get_node_id prev) ;;; ret (Some tt)
          else
            do! o <- orient_2d dbg (ce_q edge) (nr_point prev_prev) (ce_p edge) ;;
            if is_cw o then fill_left_convex_edge_event f edge (get_node_id prev)
            else ret (Some tt)
      end
  end.

(** sweeper.rs:734-756 *)
Fixpoint fill_left_below_edge_event (fuel : nat) (edge : ConstrainedEdge) (id : NodeId) : M unit :=
  match fuel with
  | O => fail_fuel
  | S f =>
      if f_lt (px (ce_p edge)) (px (ni_point id)) then
        do af <- get_front ;;
        do! o <- locate_prev_node af id ;;
        do! prev <- unwrap P_node_unwrap o ;;
        do! pp <- prev_node af prev ;;
        do! prev_prev <- unwrap P_node_unwrap pp ;;
        do! o <- orient_2d dbg (ni_point id) (nr_point prev) (nr_point prev_prev) ;;
        if is_cw o then fill_left_concave_edge_event f edge id
        else
          do r <- fill_left_convex_edge_event f edge id ;;
          match r with
          | None => skip
          | Some _ => fill_left_below_edge_event f edge id
          end
      else skip
  end.

(** sweeper.rs:713-732 *)
Fixpoint fill_left_above_edge_event (fuel : nat) (edge : ConstrainedEdge) (id : NodeId) : M unit :=
  match fuel with
  | O => fail_fuel
  | S f =>
      do af <- get_front ;;
      do! o <- locate_prev_node af id ;;
      match o with
      | None => skip
      | Some prev =>
          if f_le (px (nr_point prev)) (px (ce_p edge)) then skip
          else
            do! o <- orient_2d dbg (ce_q edge) (nr_point prev) (ce_p edge) ;;
            if is_cw o then
              fill_left_below_edge_event f edge id ;;;
              fill_left_above_edge_event f edge id
            else fill_left_above_edge_event f edge (get_node_id prev)
      end
  end.

(** sweeper.rs:579-590 *)
Definition fill_edge_event (fuel : nat) (edge : ConstrainedEdge) (id : NodeId) : M unit :=
  if ce_right edge then fill_right_above_edge_event fuel edge id
  else fill_left_above_edge_event fuel edge id.

(** ** Flipping *)

(** sweeper.rs:965-980; returns the next triangle and the queue *)
Definition next_flip_triangle (o : Orientation) (t ot : tid) (queue : list tid) : tid * list tid :=
  if is_ccw o then (t, queue ++ [ot]) else (ot, queue ++ [t]).

(** sweeper.rs:982-1009 *)
Definition next_flip_point (ep eq : pid) (ot_id : tid) (op : pid) : M pid :=
  do! pq <- pt eq ;;
  do! po <- pt op ;;
  do! pp <- pt ep ;;
  do! o2d <- orient_2d dbg pq po pp ;;
  do ts <- get_tris ;;
  do! ot <- ts_get_unchecked dbg ts ot_id ;;
  match o2d with
  | CW => lift (point_ccw ot op)
  | CCW => lift (point_cw ot op)
  | Collinear => panic P_opposing_on_edge
  end.

(** sweeper.rs:931-934: rotate, then remap if needed *)
Definition flip_pair (t_id : tid) (p : pid) (ot_id : tid) (op : pid) : M unit :=
  do need_remap <- rotate_triangle_pair t_id p ot_id op ;;
  if (need_remap : bool) then map_triangle_to_nodes t_id ;;; map_triangle_to_nodes ot_id else skip.

(** sweeper.rs:940-946: mark the edge in both rotated triangles *)
Definition mark_flipped (t_id ot_id : tid) (ep eq : pid) : M unit :=
  do ts <- get_tris ;;
  do! t <- ts_get_mut_unchecked ts t_id ;;
  let ts := ts_put ts t_id (set_constrained_for_edge t ep eq) in
  do! ot <- ts_get_mut_unchecked ts ot_id ;;
  put_tris (ts_put ts ot_id (set_constrained_for_edge ot ep eq)).

(** sweeper.rs:849-850, 876-877: mark a sub-edge of a collinear constraint,
    in this triangle only; returns the triangle *)
Definition mark_collinear (t_id : tid) (index : ix) : M InnerTriangle :=
  do ts <- get_tris ;;
  do! t <- ts_get_mut_unchecked ts t_id ;;
  let t := tri_set_constrained t index true in
  put_tris (ts_put ts t_id t) ;;;
  ret t.

(** sweeper.rs:824-905, 910-963, 1011-1053: three mutually recursive
    functions.  The [&mut Vec<TriangleId>] argument is threaded as [queue]
    (in push order) and returned. *)
Fixpoint edge_event_process (fuel : nat) (ep eq : pid) (ce : ConstrainedEdge) (t_id : tid) (p : pid)
    (queue : list tid) {struct fuel} : M (list tid) :=
  match fuel with
  | O => fail_fuel
  | S f =>
      do! _ <- rassert P_edge_event_invalid (negb (tid_invalid t_id)) ;;
      do marked <- try_mark_edge_for_triangle ep eq t_id ;;
      if (marked : bool) then ret queue
      else
        do ts <- get_tris ;;
        do! t <- ts_get_mut_unchecked ts t_id ;;
        do! p1 <- point_ccw t p ;;
        do! peq <- pt eq ;;
        do! pp1 <- pt p1 ;;
        do! pep <- pt ep ;;
        do! o1 <- orient_2d dbg peq pp1 pep ;;
        if is_collinear o1 then
          match edge_index t eq p1 with
          | Some edge_index =>
              do t <- mark_collinear t_id edge_index ;;
              do! across <- neighbor_across t p ;;
              do! ce' <- with_q ce p1 ;;
              edge_event_process f ep p1 ce' across p1 queue
          | None => panic P_collinear
          end
        else
          do! p2 <- point_cw t p ;;
          do! pp2 <- pt p2 ;;
          do! o2 <- orient_2d dbg peq pp2 pep ;;
          if is_collinear o2 then
            match edge_index t eq p2 with
            | Some edge_index =>
                do t <- mark_collinear t_id edge_index ;;
                do! across <- neighbor_across t p ;;
                do! ce' <- with_q ce p2 ;;
                edge_event_process f ep p2 ce' across p2 queue
            | None => panic P_collinear
            end
          else if orientation_eqb o1 o2 then
            do! t_id' <- (if is_cw o1 then neighbor_ccw t p else neighbor_cw t p) ;;
            edge_event_process f ep eq ce t_id' p queue
          else
            flip_edge_event f ep eq ce t_id p queue
  end
with flip_edge_event (fuel : nat) (ep eq : pid) (edge : ConstrainedEdge) (t_id : tid) (p : pid)
    (queue : list tid) {struct fuel} : M (list tid) :=
  match fuel with
  | O => fail_fuel
  | S f =>
      do ts <- get_tris ;;
      do! t <- ts_get_unchecked dbg ts t_id ;;
      do! ot_id <- neighbor_across t p ;;
      do! ot <- ts_get_unchecked_at dbg U_flip_across ts ot_id ;;
      do! op <- opposite_point ot t p ;;
      do! pp <- pt p ;;
      do! ccw <- point_ccw t p ;;
      do! pb <- pt ccw ;;
      do! cw <- point_cw t p ;;
      do! pc <- pt cw ;;
      do! pd <- pt op ;;
      if in_scan_area pp pb pc pd then
        flip_pair t_id p ot_id op ;;;
        let queue := queue ++ [t_id; ot_id] in
        if (p =? eq) && (op =? ep) then
          if (eq =? q_id edge) && (ep =? p_id edge) then
            mark_flipped t_id ot_id ep eq ;;;
            ret queue
          else ret queue
        else
          do! peq <- pt eq ;;
          do! pop <- pt op ;;
          do! pep <- pt ep ;;
          do! o <- orient_2d dbg peq pop pep ;;
          let '(t', queue) := next_flip_triangle o t_id ot_id queue in
          flip_edge_event f ep eq edge t' p queue
      else
        do new_p <- next_flip_point ep eq ot_id op ;;
        do queue <- flip_scan_edge_event f ep eq edge t_id ot_id new_p queue ;;
        edge_event_process f ep eq edge t_id p queue
  end
with flip_scan_edge_event (fuel : nat) (ep eq : pid) (edge : ConstrainedEdge) (flip_t_id t_id : tid)
    (p : pid) (queue : list tid) {struct fuel} : M (list tid) :=
  match fuel with
  | O => fail_fuel
  | S f =>
      do ts <- get_tris ;;
      do! t <- ts_get_unchecked dbg ts t_id ;;
      do! ot_id <- neighbor_across t p ;;
      if tid_invalid ot_id then panic P_flip_scan_null
      else
        do! ot <- ts_get_unchecked dbg ts ot_id ;;
        do! op <- opposite_point ot t p ;;
        do! ft <- ts_get_unchecked dbg ts flip_t_id ;;
        do! p1 <- point_ccw ft eq ;;
        do! p2 <- point_cw ft eq ;;
        do! peq <- pt eq ;;
        do! pp1 <- pt p1 ;;
        do! pp2 <- pt p2 ;;
        do! pop <- pt op ;;
        if in_scan_area peq pp1 pp2 pop then
          flip_edge_event f eq op edge ot_id op queue
        else
          do new_p <- next_flip_point ep eq ot_id op ;;
          flip_scan_edge_event f ep eq edge flip_t_id ot_id new_p queue
  end.

Fixpoint legalize_all (fuel : nat) (l : list tid) : M unit :=
  match l with
  | [] => skip
  | t :: l' => legalize fuel t ;;; legalize_all fuel l'
  end.

(** [self.advancing_front.get_node_with_cache(q).unwrap()] (sweeper.rs:524, 540) *)
Definition node_with_cache (q : Point) : M NodeRef :=
  do af <- get_front ;;
  do! (o, af) <- get_node_with_cache af q ;;
  put_front af ;;;
  do! node <- unwrap P_node_unwrap o ;;
  ret node.

(** sweeper.rs:512-560 *)
Definition edge_event (fuel : nat) (edge : Edge) (q : Point) : M unit :=
  do! p <- pt (e_p edge) ;;
  let ce := mkCE edge p q (f_lt (px q) (px p)) in
  do node <- node_with_cache q ;;
  do! triangle_id <- unwrap P_triangle_unwrap (nr_tri node) ;;
  let node_id := get_node_id node in
  do marked <- try_mark_edge_for_triangle (e_p edge) (e_q edge) (Some triangle_id) ;;
  if (marked : bool) then skip
  else
    fill_edge_event fuel ce node_id ;;;
    do node <- node_with_cache q ;;
    do! triangle <- unwrap P_triangle_unwrap (nr_tri node) ;;
    do ids <- edge_event_process fuel (e_p edge) (e_q edge) ce (Some triangle) (e_q edge) [] ;;
    legalize_all fuel ids.

(** ** Verification helpers *)

(** sweeper.rs:151-183, one of the three iterations *)
Definition is_legal_edge (ts : TriangleStore) (t_id : tid) (i : ix) : res tid :=
  let! t := ts_get_unchecked dbg ts t_id in
  let ot_id := get3 (t_neighbors t) i in
  let! o := ts_get ts ot_id in
  match o with
  | None => Done None
  | Some ot =>
      let p := get3 (t_points t) i in
      let! op := opposite_point ot t p in
      let! oi := unwrap P_point_index_unwrap (point_index ot op) in
      if tri_is_constrained ot oi then Done None
      else
        let! pa := pt p in
        let! ccw := point_ccw t p in
        let! pb := pt ccw in
        let! cw := point_cw t p in
        let! pc := pt cw in
        let! pd := pt op in
        Done (if in_circle pa pb pc pd then ot_id else None)
  end.
(** sweeper.rs:151-183 *)
Definition is_legalize (ts : TriangleStore) (t_id : tid) : res (list tid) :=
  mapM (is_legal_edge ts t_id) ix_all.

(** sweeper.rs:1223-1241 *)
Fixpoint illegal_loop (ts : TriangleStore) (ids : list nat) : res (list (tid * tid)) :=
  match ids with
  | [] => Done []
  | i :: ids' =>
      let! l := is_legalize ts (Some i) in
      let! r := illegal_loop ts ids' in
      Done (map (fun n => (Some i, n)) (filter (fun n => negb (tid_invalid n)) l) ++ r)
  end.
Definition illegal_triangles (ts : TriangleStore) : res (list (tid * tid)) :=
  illegal_loop ts (seq 0 (length ts)).
(** sweeper.rs:1217-1219 *)
Definition verify_triangles (ts : TriangleStore) : res bool :=
  let! l := illegal_triangles ts in
  Done (match l with [] => true | _ => false end).

(** ** The sweep *)

(** sweeper.rs:50-55 *)
Fixpoint edges_loop (fuel : nat) (q_id : pid) (q : Point) (l : list pid) : M unit :=
  match l with
  | [] => skip
  | p :: l' =>
      let edge := mkEdge p q_id in
      edge_event fuel edge q ;;;
      emit (EvEdge edge) ;;;
      edges_loop fuel q_id q l'
  end.

(** sweeper.rs:45-58 *)
Fixpoint sweep_loop (fuel : nat) (l : list (pid * Point * PointEdges)) : M unit :=
  match l with
  | [] => skip
  | (point_id, point, edges) :: l' =>
      emit (EvEnterPoint point_id) ;;;
      point_event fuel point_id point ;;;
      emit (EvExitPoint point_id) ;;;
      edges_loop fuel point_id point (edges_list edges) ;;;
      (if dbg then
         do ts <- get_tris ;;
         do! ok <- verify_triangles ts ;;
         do! _ <- rassert P_dbg_verify ok ;; skip
       else skip) ;;;
      sweep_loop fuel l'
  end.
Definition sweep_points (fuel : nat) : M unit :=
  do! l <- iter_point_by_y points 1 ;;
  sweep_loop fuel l.

(** sweeper.rs:104-111 *)
Definition clean_push (t : InnerTriangle) (t_id from : tid) (stack : list (tid * tid)) : list (tid * tid) :=
  fold_left
    (fun st i =>
       if negb (tri_is_constrained t i) then
         let new_t := get3 (t_neighbors t) i in
         if negb (tid_eqb new_t from) then (new_t, t_id) :: st else st
       else st) ix_all stack.

(** sweeper.rs:93-113 *)
Fixpoint clean_loop (fuel : nat) (stack : list (tid * tid)) : M unit :=
  match fuel with
  | O => fail_fuel
  | S f =>
      match stack with
      | [] => skip
      | (t_id, from) :: stack =>
          if tid_invalid t_id then clean_loop f stack
          else
            do ts <- get_tris ;;
            do! tri <- unwrap P_get_mut_unwrap (ts_get_mut ts t_id) ;;
            if negb (t_interior tri) then
              let tri := with_interior tri true in
              put_tris (ts_put ts t_id tri) ;;;
              push_result t_id ;;;
              clean_loop f (clean_push tri t_id from stack)
            else clean_loop f stack
      end
  end.
(** sweeper.rs:88-116 *)
Definition clean_mesh (fuel : nat) (t_id : tid) : M unit := clean_loop fuel [(t_id, None)].

(** sweeper.rs:68-79 *)
Fixpoint find_interior (fuel : nat) (ts : TriangleStore) (p : pid) (t : tid) : res tid :=
  match fuel with
  | O => OutOfFuel
  | S f =>
      let! o := ts_get ts t in
      match o with
      | Some tri =>
          let! c := constrained_edge_cw tri p in
          if negb c then let! t' := neighbor_ccw tri p in find_interior f ts p t'
          else Done t
      | None => Done t
      end
  end.

(** sweeper.rs:61-86 *)
Definition finalize_polygon (fuel : nat) : M unit :=
  do af <- get_front ;;
  match front_nth af 1 with
  | None => skip
  | Some node =>
      match nr_tri node with
      | None => skip
      | Some t =>
          do ts <- get_tris ;;
          do! t <- find_interior fuel ts (nr_pid node) (Some t) ;;
          if negb (tid_invalid t) then clean_mesh fuel t else skip
      end
  end.
End S.
