(** * Spec: plane geometry and polygons, independent of the model

    Everything a reader needs to understand what the property theorems say
    about polygons.  Points are pairs of integers ([zpt], Exact.v); an f64
    coordinate is the integer [zv x], its value times 2^1074. *)
From Coq Require Import ZArith Bool List.
From Coq.Floats Require Import SpecFloat.
From Verif Require Import Base Num Shape Points Front Sweeper Cdt F64 Exact F64Exact.
Import ListNotations.
Local Open Scope Z_scope.

(** the f64 of an integer, and a polygon with integer coordinates *)
Definition f64 (z : Z) : spec_float := binary_normalize 53 1024 z 0 false.
Definition pt64 (p : Z * Z) : @Point F64 := @mkPoint F64 (f64 (fst p)) (f64 (snd p)).

(** a point lies on the closed segment ab, given that it is collinear with it *)
Definition between (a b c : zpt) : bool :=
  (Z.min (fst a) (fst b) <=? fst c) && (fst c <=? Z.max (fst a) (fst b)) &&
  (Z.min (snd a) (snd b) <=? snd c) && (snd c <=? Z.max (snd a) (snd b)).
(** the closed segments ab and cd have a common point *)
Definition segments_meet (a b c d : zpt) : bool :=
  let o1 := orient a b c in let o2 := orient a b d in
  let o3 := orient c d a in let o4 := orient c d b in
  ((o1 * o2 <? 0) && (o3 * o4 <? 0)) ||
  ((o1 =? 0) && between a b c) || ((o2 =? 0) && between a b d) ||
  ((o3 =? 0) && between c d a) || ((o4 =? 0) && between c d b).

(** pairs (i, j), i < j, of positions below n *)
Definition pairs (n : nat) : list (nat * nat) :=
  flat_map (fun i => map (fun j => (i, j)) (seq (S i) (n - S i))) (seq 0 n).
Definition at_ (l : list zpt) (i : nat) : zpt := nth (Nat.modulo i (length l)) l (0, 0).

(** two sides of the polygon meet only if they are neighbours, and then only
    in their common vertex *)
Definition simple_polygon (l : list zpt) : bool :=
  (3 <=? Z.of_nat (length l)) &&
  forallb (fun ij =>
    let '(i, j) := ij in
    let a := at_ l i in let b := at_ l (S i) in
    let c := at_ l j in let d := at_ l (S j) in
    if (Nat.eqb j (S i)) then negb ((orient a b d =? 0) && (between a b d || between b d a))
    else if (Nat.eqb i 0 && Nat.eqb (S j) (length l)) then
      negb ((orient c a b =? 0) && (between c a b || between a b c))
    else negb (segments_meet a b c d)) (pairs (length l)).

(** no two points share an x or a y coordinate, no three are collinear *)
Definition general_position (l : list zpt) : bool :=
  forallb (fun ij =>
    let '(i, j) := ij in
    negb (fst (at_ l i) =? fst (at_ l j)) && negb (snd (at_ l i) =? snd (at_ l j)) &&
    forallb (fun k => negb (orient (at_ l i) (at_ l j) (at_ l k) =? 0))
      (seq (S j) (length l - S j))) (pairs (length l)).

(** crossing parity: the point p is inside the polygon (p on no side) *)
Fixpoint crossings (p : zpt) (l : list (zpt * zpt)) : bool :=
  match l with
  | [] => false
  | (a, b) :: l' =>
      let up := (snd a <=? snd p) && (snd p <? snd b) && (0 <? orient a b p) in
      let down := (snd b <=? snd p) && (snd p <? snd a) && (orient a b p <? 0) in
      xorb (up || down) (crossings p l')
  end.
Definition sides (l : list zpt) : list (zpt * zpt) :=
  match l with [] => [] | p :: l' => combine l (l' ++ [p]) end.
Definition inside (l : list zpt) (p : zpt) : bool := crossings p (sides l).
Definition on_side (l : list zpt) (p : zpt) : bool :=
  existsb (fun ab => (orient (fst ab) (snd ab) p =? 0) && between (fst ab) (snd ab) p) (sides l).

(** ** Running the model on f64 polygons without data *)
Definition unit_src (l : list zpt) : source unit := (map pt64 l, repeat tt (length l)).
(** [Builder::new(poly).add_holes(holes).add_steiner_points(st).build()] *)
Definition cdt64 (poly : list zpt) (holes : list (list zpt)) (st : list zpt) : res (@CDT F64 unit) :=
  let! b := builder_new unit (unit_src poly) in
  let! b := add_holes unit b (map unit_src holes) in
  Done (build unit (add_steiner_points unit b (unit_src st))).
(** [...triangulate()] *)
Definition triangulate64 (dbg : bool) (fuel : nat) (poly : list zpt) (holes : list (list zpt)) (st : list zpt)
  : res (@Triangles F64 unit) :=
  let! c := cdt64 poly holes st in triangulate dbg unit fuel c.
(** [...triangulate().triangle_list_indices()] *)
Definition indices64 (dbg : bool) (fuel : nat) (poly : list zpt) (holes : list (list zpt)) (st : list zpt)
  : res (list nat) :=
  let! t := triangulate64 dbg fuel poly holes st in triangle_list_indices dbg unit t.
(** the callbacks made, in order, and the outcome *)
Definition callbacks64 (dbg : bool) (fuel : nat) (poly : list zpt) (holes : list (list zpt)) (st : list zpt)
  : list (@callback F64) :=
  match cdt64 poly holes st with
  | Done c => snd (triangulate_with_observer dbg unit fuel c (fun o cb => o ++ [cb]) [])
  | _ => []
  end.
