(** * PropsRefuted: properties of the wish list that are false of the code

    Each theorem states the property in full generality and refutes it; the
    witness is a polygon with small integer coordinates, run through the
    binary64 instance of the model.  The root cause is sweeper.rs:698 for all
    of them except C31 and C34 (see DESIGN.md, Findings). *)
From Coq Require Import List ZArith Bool Lia.
From Coq.Floats Require Import SpecFloat.
From Verif Require Import Base Num Shape Points Front Sweeper Cdt F64 Exact F64Exact Spec.
Import ListNotations.
Local Open Scope Z_scope.

(** a valid input: a simple polygon, no two vertices sharing an x or a y
    coordinate, no three vertices collinear *)
Definition valid (poly : list zpt) : Prop := simple_polygon poly = true /\ general_position poly = true.

(** the corners of the triangles named by a triangle_list_indices list; an
    index that is not an input point has no coordinates *)
Fixpoint corners (poly : list zpt) (l : list nat) : list (option (zpt * zpt * zpt)) :=
  match l with
  | a :: b :: c :: l' =>
      match nth_error poly a, nth_error poly b, nth_error poly c with
      | Some p, Some q, Some r => Some (p, q, r)
      | _, _, _ => None
      end :: corners poly l'
  | _ => []
  end.
Definition ccw_corner (t : option (zpt * zpt * zpt)) : bool :=
  match t with Some (p, q, r) => 0 <? orient p q r | None => true end.

(** C17 *)
Definition C17_claim : Prop := forall dbg fuel poly l, valid poly ->
  indices64 dbg fuel poly [] [] = Done l -> forallb ccw_corner (corners poly l) = true.
Definition w_cw : list zpt := [(6,16);(3,17);(16,14);(11,10);(18,7);(14,4)].
Theorem C17_returned_triangles_ccw_refuted : ~ C17_claim.
Proof.
  intro H.
  assert (V : valid w_cw) by (split; vm_compute; reflexivity).
  assert (R : indices64 false 200 w_cw [] [] = Done [1;3;2;3;1;5;3;5;4;5;1;0]%nat) by (vm_compute; reflexivity).
  assert (G := H false 200%nat w_cw _ V R). vm_compute in G. discriminate.
Qed.
Print Assumptions C17_returned_triangles_ccw_refuted.

(** C27 *)
Definition C27_claim : Prop := forall dbg fuel poly l, valid poly ->
  indices64 dbg fuel poly [] [] = Done l -> forall i, In i l -> (i < length poly)%nat.
Definition w_fake : list zpt := [(13,13);(11,17);(0,19);(14,4);(15,3);(1,10);(4,7);(8,2);(18,1)].
Definition ok_or {T} (d : T) (r : res T) : T := match r with Done x => x | _ => d end.
Lemma done_ok_or {T} (d : T) r : (match r with Done _ => true | _ => false end) = true -> r = Done (ok_or d r).
Proof. destruct r; try discriminate; reflexivity. Qed.
Theorem C27_no_artificial_vertex_refuted : ~ C27_claim.
Proof.
  intro H.
  assert (V : valid w_fake) by (split; vm_compute; reflexivity).
  assert (D : (match indices64 false 200 w_fake [] [] with Done _ => true | _ => false end) = true)
    by (vm_compute; reflexivity).
  assert (R := done_ok_or [] (indices64 false 200 w_fake [] []) D).
  assert (G := H false 200%nat w_fake _ V R 10%nat).
  assert (I : existsb (Nat.eqb 10) (ok_or [] (indices64 false 200 w_fake [] [])) = true) by (vm_compute; reflexivity).
  apply existsb_exists in I. destruct I as (x & I & E). apply Nat.eqb_eq in E. subst x.
  specialize (G I). clear - G. simpl in G. lia.
Qed.
Print Assumptions C27_no_artificial_vertex_refuted.

Definition erase {T} (r : res T) : res unit := let! _ := r in Done tt.
Lemma erase_panic {T} (r : res T) p : erase r = Panic p -> r = Panic p.
Proof. destruct r; simpl; congruence. Qed.
Lemma erase_ub {T} (r : res T) u : erase r = Ub u -> r = Ub u.
Proof. destruct r; simpl; congruence. Qed.

(** C29 *)
Definition C29_claim : Prop := forall dbg fuel poly p, valid poly ->
  triangulate64 dbg fuel poly [] [] <> Panic p.
Definition w_panic : list zpt := [(15,1);(14,2);(16,4);(1,14);(2,13);(3,8)].
Theorem C29_no_panic_refuted : ~ C29_claim.
Proof.
  intro H.
  assert (V : valid w_panic) by (split; vm_compute; reflexivity).
  assert (R : erase (triangulate64 false 200 w_panic [] []) = Panic P_update_triangle) by (vm_compute; reflexivity).
  exact (H _ _ _ _ V (erase_panic _ _ R)).
Qed.
Print Assumptions C29_no_panic_refuted.

(** C30 (and C13): two aliasing [&mut InnerTriangle] are created *)
Definition C30_claim : Prop := forall dbg fuel poly u, valid poly ->
  triangulate64 dbg fuel poly [] [] <> Ub u.
Definition w_alias : list zpt := [(1,19);(15,12);(7,13);(17,2);(2,4);(6,16)].
Theorem C30_no_undefined_behaviour_refuted : ~ C30_claim.
Proof.
  intro H.
  assert (V : valid w_alias) by (split; vm_compute; reflexivity).
  assert (R : erase (triangulate64 false 200 w_alias [] []) = Ub U_alias) by (vm_compute; reflexivity).
  exact (H _ _ _ _ V (erase_ub _ _ R)).
Qed.
Print Assumptions C30_no_undefined_behaviour_refuted.
Theorem C30_also_with_debug_assertions_refuted :
  valid w_alias /\ triangulate64 true 200 w_alias [] [] = Ub U_alias.
Proof. split; [split; vm_compute; reflexivity|]. apply erase_ub. vm_compute. reflexivity. Qed.

(** C31: "if the point locates outside of polyline, then it has no effect on
    the final result" (cdt.rs:96-97).  Already the number of returned
    triangles changes: a Steiner point left of the polygon makes the result
    empty, because the flood fill is seeded from the leftmost front node
    (sweeper.rs:63-79) and that node then lies on no polygon edge. *)
Definition C31_claim : Prop := forall dbg fuel poly st l l',
  simple_polygon poly = true ->
  (forall p, In p st -> inside poly p = false /\ on_side poly p = false) ->
  indices64 dbg fuel poly [] [] = Done l -> indices64 dbg fuel poly [] st = Done l' ->
  length l' = length l.
Definition w_triangle : list zpt := [(20,0);(50,10);(30,40)].
Theorem C31_outside_steiner_no_effect_refuted : ~ C31_claim.
Proof.
  intro H.
  assert (R : indices64 false 200 w_triangle [] [] = Done [2;0;1]%nat) by (vm_compute; reflexivity).
  assert (R' : indices64 false 200 w_triangle [] [(10,31)] = Done []) by (vm_compute; reflexivity).
  assert (G := fun S O => H false 200%nat w_triangle [(10,31)] _ _ S O R R').
  simpl in G. discriminate G; [vm_compute; reflexivity|].
  intros p [<-|[]]. split; vm_compute; reflexivity.
Qed.
Print Assumptions C31_outside_steiner_no_effect_refuted.

(** C34: with coordinates this close together 0.3 times the width is rounded
    away and the artificial tail is exactly above/below the rightmost point *)
Definition C34_claim : Prop := forall ps : list (@Point F64), (forall p, In p ps -> finp p) ->
  (exists p q, In p ps /\ In q ps /\ f_lt (px p) (px q) = true) ->
  (exists p q, In p ps /\ In q ps /\ f_lt (py p) (py q) = true) ->
  forall p, In p ps ->
    f_lt (px (head_point ps)) (px p) = true /\ f_lt (px p) (px (tail_point ps)) = true /\
    f_lt (py (head_point ps)) (py p) = true /\ f_lt (py (tail_point ps)) (py p) = true.
Definition ulp1 : spec_float := S754_finite false 4503599627370497 (-52). (* 1 + 2^-52 *)
Definition w_narrow : list (@Point F64) :=
  [@mkPoint F64 (f64 1) (f64 0); @mkPoint F64 ulp1 (f64 1); @mkPoint F64 (f64 1) (f64 2)].
Theorem C34_frame_strict_refuted : ~ C34_claim.
Proof.
  intro H.
  assert (F : forall p, In p w_narrow -> finp p).
  { intros p Hp. simpl in Hp. destruct Hp as [<-|[<-|[<-|[]]]]; split; simpl; vm_compute; reflexivity. }
  assert (X : f_lt (px (nth 1 w_narrow (pt64 (0,0)))) (px (tail_point w_narrow)) = false) by (vm_compute; reflexivity).
  assert (N : nth 1 w_narrow (pt64 (0,0)) = @mkPoint F64 ulp1 (f64 1)) by reflexivity.
  rewrite N in X.
  assert (G := H w_narrow F).
  destruct (G ltac:(exists (@mkPoint F64 (f64 1) (f64 0)), (@mkPoint F64 ulp1 (f64 1)); simpl; auto)
              ltac:(exists (@mkPoint F64 (f64 1) (f64 0)), (@mkPoint F64 ulp1 (f64 1)); simpl; auto)
              (@mkPoint F64 ulp1 (f64 1)) ltac:(simpl; auto)) as (_ & T & _).
  rewrite X in T. discriminate.
Qed.
Print Assumptions C34_frame_strict_refuted.

(** ... and then triangulating this triangle panics. *)
Definition narrow_result (dbg : bool) : res unit :=
  let! b := builder_new unit (w_narrow, repeat tt 3) in
  erase (triangulate dbg unit 200 (build unit b)).
Theorem C34_narrow_triangle_panics_refuted :
  narrow_result false = Panic P_node_unwrap /\ narrow_result true = Panic P_node_unwrap.
Proof. split; vm_compute; reflexivity. Qed.
Print Assumptions C30_also_with_debug_assertions_refuted.
Print Assumptions C34_narrow_triangle_panics_refuted.
