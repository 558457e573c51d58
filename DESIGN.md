# Formal model of poly2tri-rs in Rocq (Coq 8.16.1)

## What is modelled

| repo file | model file | coverage |
|---|---|---|
| src/lib.rs | Num.v, Cdt.v | `Float` as the class `Arith`; `PointDataSource`; `Triangle`. `AsPoint` is unused by the crate and not modelled |
| src/points.rs | Points.v | everything except `Index`/`get_point_uncheck` sugar and capacities |
| src/shape.rs | Shape.v | everything (`Debug`/`Default` derives excluded) |
| src/utils.rs | Utils.v | everything; the crate `robust` by contract (sign of the exact determinant) |
| src/triangles.rs | Triangles.v | everything used (`iter`, `enumerate`, `with_capacity` excluded) |
| src/advancing_front/*.rs | Front.v | everything; the `cfg(test)` hit counters excluded |
| src/sweeper.rs | Sweeper.v, SweeperBuf.v | every function; SweeperBuf.v repeats those that use the reused vectors or the lazy iterator |
| src/cdt.rs | Cdt.v | every function |
| src/loader.rs | Loader.v | every function; `str::parse::<Float>` is an oracle |
| examples/, tests, SVG drawing | - | not modelled |

Outcomes (Base.v): a computation ends with `Done`, `Panic site`, `Ub site`
(undefined behaviour: out-of-range unchecked access, aliasing `&mut`) or
`OutOfFuel`.  The sweeper is a state monad over store, front, result and the
trace of observer callbacks (each with a snapshot of what the observer can
see); the state reached is returned on failure too.

Parameters: `A : Arith` - the float operations (any implementation; instances
`F64`, `F32` in F64.v on the standard library's `SpecFloat`), and `dbg : bool`
- a build with debug assertions and overflow checks.  Theorems are for both
values of `dbg` unless they say otherwise.

Simplifications (each also in a comment at the definition): ids are unbounded
`nat` (C52: the same store up to 2^32 - 2 points); reusable buffers are local
lists (C53: modelled again with the buffers, proved the same); `sort_by` is insertion sort and `binary_search_by_key` the classic halving
loop (C52: on distinct finite points, and on strictly increasing keys, every
implementation meeting std's contract gives the same answer; on NaN or duplicate
points the model fixes one behaviour, see finding 12); capacity and performance are not modelled; the lazy point
iterator is evaluated up front over immutable data (C53).

## Trusted base

* Coq's kernel (`vm_compute` included) and the reading of the Rust source.
* `robust::orient2d`/`incircle` return the sign of the exact determinant.
* Rust `f64`/`f32` operations are IEEE round-to-nearest-even as in `SpecFloat`.
* Axioms: none, except in the theorems on integer inputs and on the rounding of
  the frame (named in the last section), which
  reason about rounding in Coq's real numbers and use the standard library's
  axioms listed at the end (`Print Assumptions` under each theorem in the
  `Props*.v` files).

## How each property is handled

See MANIFEST.json for the theorem names.  Method per property:

* C01-C03, C08, C35: builder model; induction over polylines / call sequence.
* C04-C07: trace lemmas about the monad (which events a function can append).
* C09-C12: flood-fill invariant (visited = result, stack covers the frontier).
* C13: in-range invariant of every id for arbitrary input and arithmetic; the
  two sites that can be undefined behaviour are exhibited (`_refuted`); the
  third candidate is excluded on f64 by the position of the artificial points,
  NaN and infinities included (PropsLow).
* C14-C16: sorted front invariant; binary search lemma; cache validity.
* C17-C25, C38-C40: exact arithmetic (F64 values are dyadics, scaled to Z);
  mesh invariant (counter-clockwise, symmetric adjacency, boundary = front +
  bottom edge) preserved by every operation, under the observable hypothesis
  that each triangle was counter-clockwise when created; the hypothesis is
  false in general because of sweeper.rs:698 (finding, see below).
* C25-C27: chain argument: every directed-edge cycle of the mesh is the
  boundary of an integer combination of triangles; winding numbers add up.
* C22, C28: total correctness logic `gd` (Total.v): every operation of the sweep
  succeeds and keeps the invariant provided the triangles it announces are
  counter-clockwise, or the input is `tame`; `lc` (Local.v) locates the
  first inverted triangle.  The step budget is shown irrelevant (Fuel.v).
* C40: the converse (Convex.v, ConvexRun.v, PropsConvex.v): a predicate on the
  callbacks seen so far (`next_edge`, `dips`, `unmade`) forces the next callback
  to announce a triangle that is not counter-clockwise.
* C43: the classical walk (Delaunay.v): follow the segment from the triangle to
  the point; each side crossed is not an input edge, so it is shared with a
  returned triangle and locally Delaunay (C20), and being outside the circle of
  the next triangle implies being outside the circle of this one.  The segment
  is first moved off the vertices (`generic_near`, PropsCdt.v).
* C44: the winding number of the contours changes by one across a marked edge and
  not across others, so exactly one side of a marked edge is in the region.
* C45, converse (PropsOutside.v): a corner of a returned triangle is on a contour or in the region.
* C45: every input point is a vertex of the mesh when the run ends
  (`run_vertices`, MeshStart.v), no vertex is inside a triangle (Planar.v).
* C46: C22_first_inversion, C28_completes_or_inverts and C43 put together on
  integer inputs (PropsOutcome), where C42 discharges all hypotheses on f64.
* C47: a consequence of C26 and C44.  Every triangle has one corner between the
  other two in the order of a generic linear form; the triangles are counted at
  these corners.  At a point surrounded by triangles there are two (Fan), at a
  contour point 1 minus its signed half turn, and the half turns of a simple
  polygon add up to two times the one at its lowest point (Hopf: a discrete
  turning-number theorem).  At the leftmost point of the outer polygon there are
  none and at that of a hole two, by winding numbers (HoleWind, CountAll).
* C48: uniqueness of the constrained Delaunay triangulation (Unique).  Two
  triangles, one of each result, that overlap have each no corner of the other
  inside their circle (C43 and C44: an input edge cannot hide it, being a side in
  both results); the two circles' power difference is an affine function that
  would have to be positive and negative at a common point, so the circles
  agree, and no four points are cocircular.  PropsUnique carries all hypotheses
  from one description to the other.
  For arbitrary f64 coordinates C48_f64_finished_runs (PropsMoved), with the exact
  values of the coordinates in units of 2^-1074.
* C49: the notion of constrained Delaunay triangulation and all hypotheses are
  invariant under p -> K p + t (Moved), then uniqueness.  The two inputs may be
  given in different units 2^e.
* C50: C49 with two units, for 2^-20 .. 2^400; refuted below by a run that
  panics (PropsTiny).
* C51: Lawson's argument (Lawson.v): an edge removed by a rotation inside one
  legalization lies above the surface that lifts the triangulation to the
  paraboloid ever after, so it never comes back; the removed edges are distinct pairs of the N points.  PropsSteps.v reads
  this off the callbacks; the step budget of whole runs is explicit in PropsTotal.v.
* C52: the builder once more with ids modulo W (PropsMachine.v), equal to the first
  by induction over the calls; a sorted permutation of distinct points is unique,
  and so is the answer of a search in strictly increasing keys.
* C53: a simulation between the two models of the sweep (PropsBuf.v), function by
  function: started with empty vectors they do the same, and on success leave them empty.
* C54: the winding number counts crossings of a ray straight down, which a turn does
  not respect; for a point on no line through an edge it is the sum over the edges of
  the signs of the triangles with a common apex (`wind_fan`, `wn3_signs`), which a
  similarity keeps and a mirror negates (`wind_turned`).  So the triangles of the turned
  input satisfy, at such points, all that a proper triangulation of the input does
  (`turn_back`), and that is enough for uniqueness (`unique_tris`).
* C55: if an empty-circle triangle of either result meets one of the other, the two
  are the same (`common_point`, `meet_same`), and a corner of the second lying inside a
  triangle is seen from there (`corner_seen`); so a triangle not disturbed by an added
  point stays Delaunay among all points and is in the second result, and conversely.
* C56: the same with the constrained edges of the second input; a corner of a triangle is
  seen from inside it past the edges of an added hole, because what stands between would be
  strictly inside the triangle (`between_inside`); no constrained edge passes through a
  triangle of a proper triangulation (`edge_outside`).
* C57: the middle of the segment is in a closed triangle of the result.  Neither end is
  strictly inside its circumcircle (C28; seen from a point close to the middle, `toward`,
  `seen_near`), no corner but the ends is in the disc; an identity between the powers of a
  point to the two circles (`disc_sum`) leaves only triangles with the segment as a side
  (`link`).  No assumption on cocircular points.
* C58: lifted to the paraboloid, the corners of a competing triangle that are seen from
  the point lie on or above the plane of the triangle of the result (C28), so does its
  plane over the point (`lift_sum`).
* C59 (PropsProfile.v): a relation between the model with `dbg` true and false, composed
  function by function over the whole sweep: same outcome and state, or the debug run has
  failed in a check and the release run has only added to its trace, or both stop at the
  same access.  The verification after each point changes nothing and fails only as a check
  (`rel_verify`, `ck_verify`); for f64 inputs C13 leaves one of the paired accesses.
  With C28: on integer inputs without a cap no check fails; on any integer input both
  builds return the same or announce the same inverted triangle (star and `outcome_loop`
  are instances of the two cases).
* C60 (PropsCalls.v): every call is rewritten one hole or point at a time; induction over the
  batch and over the calls, with the length invariant of the builder for the resize.
* C28-C31: false of the code; witnesses by `vm_compute` on the F64 instance.
* C31, what does hold (PropsOutside.v): if every added Steiner point is outside
  the polygon or inside a hole, and one outside the polygon has another input
  point to its left and not below it (so that it is not the front node the flood
  fill starts from), the same triangles are returned.  A corner of a returned
  triangle that is on no contour lies in the region, since the winding number is
  constant near a point that is on no edge (Outside.v); so the result of the larger
  input is also a constrained Delaunay triangulation of the smaller one, and that
  is unique.  For f64 the two runs are assumed to finish without inverted
  triangles; for integer inputs without a cap nothing is assumed of the runs.
  For C28 (PropsLoop) the run is followed into a state that a call leaves
  unchanged, and induction on the fuel does the rest.
* C32-C33: induction over lines.
* C34: refuted for narrow inputs by rounding; proved weakly (not strictly) for
  all finite inputs and strictly when the box is not narrower than 2^-50 of the
  largest coordinate (PropsFrame.v, Flocq's rounding theorems).
* C36-C37: finite case analysis / bit lemmas.

## Hypotheses used by the geometric theorems

All are about the input or about what the observer is shown, and all are
decidable; the boolean checkers `properb`, `scanb`, `nocolb`, `goodb`,
`planeb` (PropsMesh.v, PropsMarks.v) are proved sound and evaluated on a
concrete polygon beside the theorems (`mesh_example`, `marks_example`,
`region_example`).

* `proper` (Setup.v): coordinates finite, points pairwise distinct, the two
  artificial points really frame the input.  Not automatic: finding 3.
* `scan_sound` / `scan_exact` (Good.v): the *floating point* test
  `in_scan_area` never wrongly answers yes / is right on the input's points.
  The test is not robust in the code (products and differences are rounded),
  so this is an honest hypothesis.
* `nocol`: no three points collinear.  `plane_input` (PropsMarks.v): that,
  `scan_exact`, and no two input edges cross.
* `fills_ccw` (PropsMesh.v): each triangle is counter-clockwise when the
  observer is first shown it.  False in general because of finding 1.
* `eps_ok`, `exact_fills` (FillTotal.v, Local.v): the comparison with
  `Float::EPSILON` in `point_event` and the sign of the (rounded) angle of
  three points are right on the input's points.  Decided by `fillsb`.
* `convex_below ps p q` (Local.v): the edge p-q (q the upper end) leans to the
  right and two points below it follow a point on or above it without a left
  turn ("a cap").  Inputs without such an edge are the cup inputs of C28.
* `steiner_allowed` (PropsRegion.v; `loose_points_allowed` for integer
  inputs): a Steiner point lies inside the outer polygon, or some input point
  is strictly to the left of it and not below it; needed because of finding 2
  (Screen.v: such a point is never the front node the flood fill starts at).

Integer and fixed-point inputs (IntSpec.v, PropsInt.v): for points whose
coordinates are multiples m * 2^e of a common unit, -20 <= e <= 400 and
|m| <= 65536 (integer coordinates of at most 16 bits are the case e = 0;
theorems about `Builder::new(poly)` on integer lists are stated for it), no
three of which are on a line (the two artificial points, written in tenths of
the unit, included), `proper`, `nocol`, `scan_exact`, `eps_ok` and
`exact_fills` are theorems (C42), not hypotheses; the theorems there speak
only of the integers m the user wrote down.  The lower bound on e is there
because the code compares with EPSILON = 2^-52, not scaled to the input: the
scan-area test ignores determinants below it, so with units much smaller than
2^-26 the code takes different decisions.  Limitation: an axis-parallel
rectangle is not covered, because the artificial head point lies on its
diagonal (extended), so three points are on a line.

## How the geometric part is proved

* Geom, Mesh, Rotate, Setup: exact orientation / in-circle determinants over
  Z; the mesh invariant (`mesh`), effect of a rotation.
* Legal, Lawson, Legalize, LegalTotal: a removed edge is dead for good
  (`dead_flip`); legalization keeps the mesh, leaves it locally Delaunay, and
  makes at most N (N - 1) / 2 rotations.
* Boundary, Chain, Remap, Attach, FrontInv, Init: the advancing front is an
  x-monotone chain and equals the upper boundary of the mesh.
* Winding, Cover, CoverRun, Disc, Stokes: covering degree of the mesh.
* Cone, Planar: a mesh edge cannot cross another, no vertex lies inside a
  triangle.
* Good, Marks, Flips, Corridor, Frames, Insert, Fills, MeshRun, MeshStart:
  one invariant (`Kst`, `claim`) through the whole run, including constraint
  insertion by flips: a constraint ends up an edge of the mesh, only input
  edges are marked.
* Total, FrontSub, FillTotal, EdgeFill, NoCross, CorTotal, InsertTotal,
  EdgeTotal, RunTotal, Fuel, Local, PropsTotal, PropsCup: the sweep succeeds.
  FillTotal: point events; EdgeFill: the fills left and right of an edge;
  NoCross, CorTotal, InsertTotal: the flip loop of an edge ends (potential:
  the triangles crossed); RunTotal: the whole sweep.
* Region, Inside, FanAll, PropsRegion: the flood fill from the seed triangle
  collects exactly the inside of the polygon minus the holes.
* PropsTri: the same for the list of indices the API returns.
* Convex, ConvexRun, PropsConvex: the convex case of right-leaning edges (C40).
* Delaunay, PropsCdt, PropsCdtInt, PropsCdtEx: from locally to globally Delaunay,
  the sides and corners of the returned triangles (C43-C45).
* F64Real, IntF64, IntRun, IntHyp, PropsInt, PropsIntEx: error bounds (Flocq)
  for the f64 operations on fixed-point inputs: the artificial points, the scan
  test, the epsilon comparisons, the angles.

## Findings

1. sweeper.rs:698: `fill_right_convex_edge_event` calls
   `fill_right_concave_edge_event(edge, node_id)`; the left version (line 778)
   and the original poly2tri pass the *next* node.  The branch therefore fills
   a vertex already known not to be concave: inverted triangles, then panics,
   infinite loops or aliasing `&mut` (UB) on simple polygons in general
   position (about 1% of random 8-gons).  With that argument corrected in a
   scratch copy of the model, 9000 of 9000 random polygons succeed.
2. C31: a Steiner point left of the polygon makes the result empty or wrong
   (`finalize_polygon` seeds from the leftmost front node): triangle
   (20,0)(50,10)(30,40) with Steiner point (10,31).
3. Narrow inputs: the margin of the artificial frame is lost in rounding, the
   artificial tail coincides with xmax, `locate_node(..).unwrap()` panics.
4. `common_edge_index` misses an edge that both triangles traverse in the
   same direction (cannot happen between ccw triangles).
5. `exceeds_90_degree` is false for a straight angle (dy = 0, dx < 0), so
   three collinear front nodes can be filled with a degenerate triangle.
6. `mark_collinear` (sweeper.rs:849, 876) marks a constraint on one side only;
   `legalize` tests its own side's flag only and may flip that edge away.
7. The loader panics on a whitespace-only line and on "HOLE " with a trailing
   blank (C33).
8. `in_scan_area` answers yes on NaN; `flip_edge_event` never checks whether
   the edge it flips is itself constrained (C41 shows that this cannot happen
   for planar input in general position).
9. `fill_right_convex_edge_event` answers `Some(())` in its "above" branch
   without having changed anything (sweeper.rs:701-705), and
   `fill_right_below_edge_event` then calls itself with the same arguments
   (634-636).  After the inversion of finding 1 this recursion never ends:
   (1,17)(4,19)(16,9)(18,7)(5,10)(10,6)(11,5)(0,3), C28_never_returns.
10. `flip_edge_event` reads the triangle across an outer edge through
   `get_unchecked` (sweeper.rs:921): out of range in builds without debug
   assertions on the self-intersecting polygon (3,6)(5,7)(1,3)(4,2)(7,11)(2,4),
   C13_out_of_range_read_refuted.  The index underflow of `locate_node`
   (vec_backed.rs:161-175) cannot happen on any f64 input (PropsLow.v).
11. The comparisons with EPSILON are absolute (utils.rs:65, 70, sweeper.rs:143):
   the hexagon (0,31)(29,0)(60,29)(33,34)(30,5)(27,60), triangulated correctly
   in every unit from 2^-20 to 2^400, makes the code panic in both build
   profiles when its coordinates are multiplied by 2^-30 (about 6e-8 wide),
   C50_tiny_polygon_panics.
12. The comparator of points.rs:142 answers `Greater` both ways on equal points (and
    on NaN), so it is not an order; std's documentation of `sort_by` then allows any
    order or a panic (Rust >= 1.81).  Inputs with duplicate or NaN points are
    therefore modelled for one behaviour of the sort only.

## Print Assumptions

Every theorem named in MANIFEST.json is followed by `Print Assumptions` in its
file.  118 of the 165 print "Closed under the global context": no axioms at all.
The other 47 are about integer inputs or about the rounding of f64 operations;
they use Flocq's theorems on rounding and so the axioms of the standard library's
real numbers, and no others: `ClassicalDedekindReals.sig_not_dec`,
`ClassicalDedekindReals.sig_forall_dec`,
`FunctionalExtensionality.functional_extensionality_dep`,
`Classical_Prop.classic` (so do the examples that apply them, such as those of
PropsIntEx.v and PropsCdtEx.v).  They are:
C13_f64_undefined_behaviour_is_one_of_two_partial, C28_integer_correct_or_inverts,
C28_integer_inputs_triangulated_partial, C28_integer_polygon_triangulated_partial,
C28_convex_polygon_triangulated, C28_integer_inputs_cdt_partial, C28_integer_polygon_cdt_partial,
C31_integer_inputs_partial, C31_polygon_partial, C34_frame_outside_partial,
C34_frame_strict_unless_narrow_partial, C34_integer_frame_strict_partial,
C42_integer_inputs_decided_exactly, C43_integer_finished_run, C43_convex_polygon_delaunay,
C28_integer_polygon_correct_or_inverts, C47_integer_inputs, C47_integer_polygon, C47_convex_polygon,
C48_finished_runs, C48_same_result, C48_polygon, C48_convex_polygon, C49_finished_runs, C49_moved,
C49_polygon, C49_convex_polygon, C50_units_do_not_matter, C54_turned, C54_polygon,
C54_convex_polygon, C55_added, C55_steiner_points, C55_polygon, C56_carved, C56_added_hole,
C57_integer_inputs, C57_polygon, C57_convex_polygon, C58_integer_inputs, C58_polygon,
C58_convex_polygon, C59_profiles_agree_until_a_check_fails,
C59_release_result_is_debug_result_or_check, C59_integer_inputs, C59_integer_outcome,
C59_polygon.
