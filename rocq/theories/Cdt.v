(** * Cdt: model of src/cdt.rs and of the data sources of src/lib.rs *)
From Coq Require Import List Arith Bool.
From Verif Require Import Base Num Shape Utils Points Triangles Front Sweeper.
Import ListNotations.

Section S.
Context {A : Arith}.
Variable dbg : bool.
Variable PD : Type.

(** lib.rs:22-45: a source is a pair of vectors; [Vec<Point>] pairs the
    points with as many units. *)
Definition source := (list Point * list PD)%type.

(** cdt.rs:75-78 *)
Record Builder := mkBuilder { bd_points : PointsBuilder; bd_data : list PD }.

(** cdt.rs:267-271: add every point of the polyline, remembering its id *)
Fixpoint add_all (b : PointsBuilder) (l : list Point) : list (pid * Point) * PointsBuilder :=
  match l with
  | [] => ([], b)
  | p :: l' =>
      let '(id, b) := pb_add_steiner_point b p in
      let '(ids, b) := add_all b l' in
      ((id, p) :: ids, b)
  end.

Definition push_edge_between (b : PointsBuilder) (x y : pid * Point) : res PointsBuilder :=
  let! e := edge_new (fst x) (snd x) (fst y) (snd y) in
  pb_push_edge b (e_q e) (e_p e).

(** cdt.rs:274-288 *)
Fixpoint polyline_edges (b : PointsBuilder) (first last : pid * Point) (l : list (pid * Point))
  : res PointsBuilder :=
  match l with
  | p2 :: l' => let! b := push_edge_between b last p2 in polyline_edges b first p2 l'
  | [] => push_edge_between b last first
  end.

(** cdt.rs:265-290 *)
Definition parse_polyline (polyline : list Point) (b : PointsBuilder) : res PointsBuilder :=
  let '(ids, b) := add_all b polyline in
  match ids with
  | [] => Done b
  | first :: rest => polyline_edges b first first rest
  end.

(** cdt.rs:83-93 *)
Definition builder_new (src : source) : res Builder :=
  let! b := parse_polyline (fst src) pb_new in Done (mkBuilder b (snd src)).
(** cdt.rs:98-102 *)
Definition add_steiner_point (b : Builder) (p : Point) (d : PD) : Builder :=
  mkBuilder (snd (pb_add_steiner_point (bd_points b) p)) (bd_data b ++ [d]).
(** cdt.rs:105-110 *)
Definition add_steiner_points (b : Builder) (src : source) : Builder :=
  mkBuilder (pb_add_steiner_points (bd_points b) (fst src)) (bd_data b ++ snd src).
(** cdt.rs:113-119 *)
Definition add_hole (b : Builder) (src : source) : res Builder :=
  let! ps := parse_polyline (fst src) (bd_points b) in
  Done (mkBuilder ps (bd_data b ++ snd src)).
(** cdt.rs:122-130 *)
Fixpoint add_holes (b : Builder) (holes : list source) : res Builder :=
  match holes with
  | [] => Done b
  | h :: holes' => let! b := add_hole b h in add_holes b holes'
  end.

(** cdt.rs:144-147 *)
Record CDT := mkCDT { c_points : Points; c_data : list PD }.
(** cdt.rs:133-139 *)
Definition build (b : Builder) : CDT := mkCDT (pb_build (bd_points b)) (bd_data b).

(** cdt.rs:150-162 *)
Record Triangles := mkTriangles {
  tr_points : Points;
  tr_data : list PD;
  tr_triangles : TriangleStore;
  tr_result : list tid;
  tr_next : nat
}.

(** cdt.rs:228-241: the initial triangle, front and sweeper *)
Definition run_init (points : Points) : res Sweeper :=
  let! first := unwrap P_no_points (get_id_by_y points 0) in
  let '(initial, ts) := ts_insert [] (tri_new first (ps_head points) (ps_tail points)) in
  let! o := ts_get ts initial in
  let! t0 := unwrap P_triangle_unwrap o in
  let! af := front_new t0 initial points in
  Done (mkSw ts af [] []).

(** cdt.rs:242-249: the sweep and the finalization *)
Definition run_body (fuel : nat) (points : Points) : M unit :=
  bind (sweep_points dbg points fuel) (fun _ =>
  bind (emit EvSweepDone) (fun _ =>
  bind (finalize_polygon fuel) (fun _ =>
  emit EvFinalized))).

Definition empty_sweeper : Sweeper := mkSw [] (mkFront [] None) [] [].

(** cdt.rs:228-249: everything up to the construction of the result: the
    outcome and the state reached, with the callbacks made. *)
Definition run (fuel : nat) (points : Points) : res unit * Sweeper :=
  match run_init points with
  | Done s => run_body fuel points s
  | Panic p => (Panic p, empty_sweeper)
  | Ub u => (Ub u, empty_sweeper)
  | OutOfFuel => (OutOfFuel, empty_sweeper)
  end.

(** cdt.rs:227-262.  The observer is a function folded over the callbacks in
    the order they were made; its state survives a panic. *)
Definition triangulate_with_observer {O} (fuel : nat) (c : CDT) (obs : O -> callback -> O) (o : O)
  : res Triangles * O :=
  let '(r, ctx) := run fuel (c_points c) in
  (let! _ := r in
   Done (mkTriangles (c_points c) (c_data c) (s_tris ctx) (s_result ctx) 0),
   fold_left obs (rev (s_trace ctx)) o).
(** cdt.rs:222-224 *)
Definition triangulate (fuel : nat) (c : CDT) : res Triangles :=
  fst (triangulate_with_observer fuel c (fun (_ : unit) _ => tt) tt).

(** cdt.rs:167-174 *)
Definition triangles_points (t : Triangles) : list Point := points_without_fake (tr_points t).
Definition triangles_data (t : Triangles) : list PD := tr_data t.

(** cdt.rs:182-189 *)
Fixpoint indices_loop (ts : TriangleStore) (l : list tid) : res (list nat) :=
  match l with
  | [] => Done []
  | id :: l' =>
      let! t := ts_get_unchecked dbg ts id in
      let! r := indices_loop ts l' in
      Done (a0 (t_points t) :: a1 (t_points t) :: a2 (t_points t) :: r)
  end.
(** cdt.rs:179-192 *)
Definition triangle_list_indices (t : Triangles) : res (list nat) :=
  indices_loop (tr_triangles t) (tr_result t).

(** lib.rs:92-95 *)
Record Triangle := mkTriangle { tri_points : arr3 Point }.

(** cdt.rs:198-217 *)
Definition triangles_next (t : Triangles) : res (option Triangle * Triangles) :=
  if tr_next t <? length (tr_result t) then
    let index := tr_next t in
    let t' := mkTriangles (tr_points t) (tr_data t) (tr_triangles t) (tr_result t) (tr_next t + 1) in
    let! id := get_unchecked U_result (tr_result t) index in
    let! tri := ts_get_unchecked dbg (tr_triangles t) id in
    let! p0 := get_point_uncheck (tr_points t) (a0 (t_points tri)) in
    let! p1 := get_point_uncheck (tr_points t) (a1 (t_points tri)) in
    let! p2 := get_point_uncheck (tr_points t) (a2 (t_points tri)) in
    Done (Some (mkTriangle (mkArr p0 p1 p2)), t')
  else Done (None, t).
End S.
Arguments bd_points {A PD}. Arguments bd_data {A PD}.
Arguments c_points {A PD}. Arguments c_data {A PD}.
Arguments tr_points {A PD}. Arguments tr_data {A PD}. Arguments tr_triangles {A PD}.
Arguments tr_result {A PD}. Arguments tr_next {A PD}.
