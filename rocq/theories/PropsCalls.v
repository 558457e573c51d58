(** * PropsCalls: C60 - how the builder calls are grouped does not matter

    cdt.rs:98-130: [add_holes] is [add_hole] for each hole; [add_steiner_points], which appends the points in one go
    and resizes the vector of edges, is [add_steiner_point] for each point with its data. *)
From Coq Require Import List Arith Bool Lia.
From Coq Require Import ZArith.
From Verif Require Import Base Num Shape Points Triangles Front Sweeper Cdt Lists BuilderSpec History F64 Spec PropsTrace IntSpec PropsCdtEx PropsIntEx.
Import ListNotations.

Section S.
Context {A : Arith}.
Variable PD : Type.

(** the call, one hole or one Steiner point at a time *)
Definition one_by_one (c : call PD) : list (call PD) :=
  match c with
  | CHole _ s => [CHole PD s]
  | CHoles _ l => map (CHole PD) l
  | CSteiner _ p d => [CSteiner PD p d]
  | CSteiners _ s => map (fun pd => CSteiner PD (fst pd) (snd pd)) (combine (fst s) (snd s))
  end.
(** as many data as points, in a batch of Steiner points (cdt.rs does not check it) *)
Definition one_datum_each (c : call PD) : Prop :=
  match c with CSteiners _ s => length (fst s) = length (snd s) | _ => True end.

Lemma pb_ext (a b : @PointsBuilder A) : pb_points a = pb_points b -> pb_edges a = pb_edges b -> a = b.
Proof. destruct a, b. cbn. congruence. Qed.
Lemma apply_calls_app (l k : list (call PD)) : forall b, apply_calls PD b (l ++ k) = let! b' := apply_calls PD b l in apply_calls PD b' k.
Proof. induction l as [|c l IH]; intro b; cbn [app apply_calls rbind]; [reflexivity|]. destruct (apply_call PD b c); cbn [rbind]; auto. Qed.
Lemma holes_one_by_one l : forall b, apply_calls PD b (map (CHole PD) l) = add_holes PD b l.
Proof.
  induction l as [|s l IH]; intro b; cbn [map apply_calls add_holes apply_call]; [reflexivity|].
  destruct (add_hole PD b s); cbn [rbind]; auto.
Qed.
Lemma steiners_one_by_one : forall ps ds b, length ps = length ds -> bd_wf PD b ->
  apply_calls PD b (map (fun pd => CSteiner PD (fst pd) (snd pd)) (combine ps ds)) = Done (add_steiner_points PD b (ps, ds)).
Proof.
  induction ps as [|p ps IH]; intros [|d ds] b L W; cbn in L; try discriminate L; cbn [combine map apply_calls apply_call rbind fst snd].
  - unfold add_steiner_points. cbn [fst snd]. rewrite app_nil_r. destruct b as [pb dt]. cbn [bd_points bd_data]. unfold bd_wf in W. cbn [bd_points] in W. do 2 f_equal.
    destruct (steiners_wf pb [] W) as (E1 & E2 & _). cbn [length repeat] in E2. rewrite app_nil_r in E1, E2. symmetry. apply pb_ext; assumption.
  - assert (W' : bd_wf PD (add_steiner_point PD b p d)).
    { unfold bd_wf, wf_pb, add_steiner_point in *. cbn [bd_points pb_add_steiner_point snd pb_edges pb_points]. rewrite !app_length. cbn [length]. lia. }
    rewrite (IH ds _ (eq_add_S _ _ L) W'). unfold add_steiner_points. cbn [fst snd]. f_equal. unfold bd_wf in *.
    destruct (steiners_wf _ ps W') as (E1 & E2 & _). destruct (steiners_wf _ (p :: ps) W) as (F1 & F2 & _).
    f_equal; [|unfold add_steiner_point; cbn [bd_data]; rewrite <- app_assoc; reflexivity].
    apply pb_ext; [rewrite E1, F1|rewrite E2, F2]; unfold add_steiner_point; cbn [bd_points pb_add_steiner_point snd pb_edges pb_points]; rewrite <- app_assoc; reflexivity.
Qed.
Lemma call_one_by_one c b : one_datum_each c -> bd_wf PD b -> apply_calls PD b (one_by_one c) = apply_call PD b c.
Proof.
  intros OD W. destruct c as [s|l|p d|[ps ds]]; cbn [one_by_one apply_call one_datum_each fst snd] in *.
  - cbn [apply_calls apply_call]. destruct (add_hole PD b s); reflexivity.
  - apply holes_one_by_one.
  - reflexivity.
  - apply steiners_one_by_one; assumption.
Qed.
Lemma calls_one_by_one l : forall b, Forall one_datum_each l -> bd_wf PD b -> apply_calls PD b (flat_map one_by_one l) = apply_calls PD b l.
Proof.
  induction l as [|c l IH]; intros b OD W; [reflexivity|]. inversion OD as [|? ? O1 O2]; subst. cbn [flat_map apply_calls].
  rewrite apply_calls_app, call_one_by_one by assumption. destruct (apply_call PD b c) as [b'| | |] eqn:E; cbn [rbind]; try reflexivity.
  apply IH; [exact O2|]. exact (proj2 (proj2 (apply_call_points PD c b b' W E))).
Qed.
Lemma builder_new_wf src b : builder_new PD src = Done b -> bd_wf PD b.
Proof. intro H. exact (proj2 (proj2 (builder_of_points PD src [] b ltac:(unfold builder_of; rewrite H; reflexivity)))). Qed.
Lemma builder_one_by_one src l : Forall one_datum_each l -> builder_of PD src (flat_map one_by_one l) = builder_of PD src l.
Proof.
  intro OD. unfold builder_of. destruct (builder_new PD src) as [b| | |] eqn:E; cbn [rbind]; try reflexivity.
  apply calls_one_by_one; [exact OD|]. exact (builder_new_wf src b E).
Qed.

(** *** C60.  Two sequences of calls that add the same holes and the same Steiner points in the same order, in
    whatever batches, have the same outcome: the same builder, or the same panic. *)
Theorem C60_batches_do_not_matter : forall src calls calls',
  Forall one_datum_each calls -> Forall one_datum_each calls' -> flat_map one_by_one calls = flat_map one_by_one calls' ->
  builder_of PD src calls = builder_of PD src calls'.
Proof. intros src calls calls' H H' E. rewrite <- (builder_one_by_one src calls H), <- (builder_one_by_one src calls' H'), E. reflexivity. Qed.
(** So whatever is observed of the triangulation is the same. *)
Theorem C60_same_triangulation : forall src calls calls' dbg fuel,
  Forall one_datum_each calls -> Forall one_datum_each calls' -> flat_map one_by_one calls = flat_map one_by_one calls' ->
  (let! b := builder_of PD src calls in Done (observed dbg fuel (build PD b))) = (let! b := builder_of PD src calls' in Done (observed dbg fuel (build PD b))).
Proof. intros src calls calls' dbg fuel H H' E. rewrite (C60_batches_do_not_matter src calls calls' H H' E). reflexivity. Qed.
(** Calls that add nothing do nothing: an empty batch, or a hole without points and data (cdt.rs:265-290). *)
Theorem C60_empty_calls_do_nothing : forall src before after,
  builder_of PD src (before ++ CHoles PD [] :: after) = builder_of PD src (before ++ after) /\
  builder_of PD src (before ++ CHole PD ([], []) :: after) = builder_of PD src (before ++ after) /\
  builder_of PD src (before ++ CSteiners PD ([], []) :: after) = builder_of PD src (before ++ after).
Proof.
  intros src before after. unfold builder_of. destruct (builder_new PD src) as [b0| | |] eqn:E; cbn [rbind]; [|split; [|split]; reflexivity..].
  rewrite !apply_calls_app. destruct (apply_calls PD b0 before) as [b| | |] eqn:F; cbn [rbind]; [|split; [|split]; reflexivity..].
  assert (W : bd_wf PD b) by exact (proj2 (proj2 (apply_calls_points PD before b0 b (builder_new_wf src b0 E) F))).
  cbn [apply_calls apply_call]. split; [reflexivity|]. split.
  - unfold add_hole, parse_polyline. cbn [fst snd add_all rbind]. rewrite app_nil_r. destruct b. reflexivity.
  - pose proof (steiners_one_by_one [] [] b eq_refl W) as S. cbn [combine map apply_calls] in S. injection S as S. rewrite <- S. reflexivity.
Qed.
End S.

(** Non-vacuity: two ways to add two holes and three Steiner points with data, and the triangulation that both have;
    in the second the last hole has a repeated corner, and both ways panic; and the length condition is needed for
    batches: with too few data the points are added nevertheless. *)
Local Open Scope Z_scope.
Definition frame_src : @source F64 nat := (map pt64 [(0,0);(90,3);(84,77);(5,81)], [10;11;12;13]%nat).
Definition hole_a : @source F64 nat := (map pt64 [(12,9);(24,13);(17,25)], [20;21;22]%nat).
Definition hole_b : @source F64 nat := (map pt64 [(61,50);(73,54);(66,67)], [30;31;32]%nat).
Definition hole_c : @source F64 nat := (map pt64 [(61,50);(61,50);(66,67)], [30;31;32]%nat).
Definition batches (h : @source F64 nat) : list (@call F64 nat) := [CHoles nat [hole_a; h]; CSteiners nat (map pt64 [(40,35);(51,22);(30,62)], [40;41;42]%nat)].
Definition singly (h : @source F64 nat) : list (@call F64 nat) :=
  [CHole nat hole_a; CHoles nat []; CHole nat h; CSteiner nat (pt64 (40,35)) 40%nat; CSteiners nat (map pt64 [(51,22)], [41%nat]); CSteiner nat (pt64 (30,62)) 42%nat].
Definition outcome (r : res (@Builder F64 nat)) (fuel : nat) : res (nat * list nat) :=
  let! b := r in let! t := triangulate true nat fuel (build nat b) in let! ids := triangle_list_indices true nat t in Done (length ids, @triangles_data F64 nat t).
Example batches_alike : builder_of nat frame_src (batches hole_b) = builder_of nat frame_src (singly hole_b) /\
  outcome (builder_of nat frame_src (batches hole_b)) 500 = Done (54, [10;11;12;13;20;21;22;30;31;32;40;41;42])%nat /\
  builder_of nat frame_src (batches hole_c) = builder_of nat frame_src (singly hole_c) /\
  outcome (builder_of nat frame_src (singly hole_c)) 500 = Panic P_repeat_points.
Proof.
  assert (H : forall h, builder_of nat frame_src (batches h) = builder_of nat frame_src (singly h)).
  { intro h. apply C60_batches_do_not_matter; [repeat constructor..|reflexivity]. }
  split; [apply H|]. split; [vm_compute; reflexivity|]. split; [apply H|vm_compute; reflexivity].
Qed.
Definition few : @call F64 nat := CSteiners nat (map pt64 [(40,35);(51,22)], [40%nat]).
Example few_data : ~ one_datum_each nat few /\
  outcome (builder_of nat frame_src [few]) 500 <> outcome (builder_of nat frame_src (one_by_one nat few)) 500.
Proof. split; [intro H; discriminate H|]. vm_compute. discriminate. Qed.
Print Assumptions C60_batches_do_not_matter.
Print Assumptions C60_same_triangulation.
Print Assumptions C60_empty_calls_do_nothing.
