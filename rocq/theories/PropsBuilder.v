(** * PropsBuilder: C01, C02, C03, C35 *)
From Coq Require Import List Arith Bool Lia Permutation Sorted ZArith.
From Verif Require Import Base Num Shape Points Triangles Front Sweeper Cdt F64 Lists BuilderSpec History
  FloatLaws SortSpec Exact F64Exact Spec.
Import ListNotations.

Section S.
Context {A : Arith}.

Lemma triangulate_fields dbg PD fuel (c : CDT PD) t : triangulate dbg PD fuel c = Done t ->
  tr_points t = c_points c /\ tr_data t = c_data c /\ tr_next t = 0.
Proof.
  unfold triangulate, triangulate_with_observer. destruct (run dbg fuel (c_points c)) as [[x|p|u|] s]; simpl; try discriminate.
  intro H; injection H as <-. auto.
Qed.
Lemma without_fake pts edges : points_without_fake (points_new pts edges) = pts.
Proof.
  unfold points_without_fake; simpl. rewrite app_length; simpl.
  replace (length pts + 2 - 2) with (length pts) by lia. rewrite firstn_app, firstn_all, Nat.sub_diag; simpl.
  apply app_nil_r.
Qed.

(** C01 *)
Theorem C01_points_in_call_order : forall PD dbg fuel src calls b t,
  builder_of PD src calls = Done b -> triangulate dbg PD fuel (build PD b) = Done t ->
  triangles_points PD t = history_points PD src calls.
Proof.
  intros PD dbg fuel src calls b t B T. apply triangulate_fields in T as (T & _ & _).
  apply builder_of_points in B as (B & _ & _). unfold triangles_points. rewrite T. simpl.
  unfold pb_build. rewrite without_fake. auto.
Qed.

(** C02 *)
Theorem C02_data_in_call_order : forall PD dbg fuel src calls b t,
  builder_of PD src calls = Done b -> triangulate dbg PD fuel (build PD b) = Done t ->
  triangles_data PD t = history_data PD src calls.
Proof.
  intros PD dbg fuel src calls b t B T. apply triangulate_fields in T as (_ & T & _).
  apply builder_of_points in B as (_ & B & _). unfold triangles_data. rewrite T. auto.
Qed.

(** every source passed has as many data as points *)
Definition balanced {PD} (s : source PD) : Prop := length (snd s) = length (fst s).
Definition call_balanced {PD} (c : call PD) : Prop :=
  match c with CHole _ s | CSteiners _ s => balanced s | CHoles _ l => Forall balanced l | CSteiner _ _ _ => True end.
(** the (point, datum) pairs passed, in call order *)
Definition call_pairs {PD} (c : call PD) : list (Point * PD) :=
  match c with
  | CHole _ s | CSteiners _ s => combine (fst s) (snd s)
  | CHoles _ l => flat_map (fun s => combine (fst s) (snd s)) l
  | CSteiner _ p d => [(p, d)]
  end.
Lemma combine_app {X Y} (a : list X) (b : list Y) a' b' : length b = length a ->
  combine (a ++ a') (b ++ b') = combine a b ++ combine a' b'.
Proof. revert b; induction a; intros [|y b]; simpl; intro; try discriminate; f_equal; auto. Qed.
Lemma flat_map_balanced {PD} (l : list (source PD)) : Forall balanced l ->
  length (flat_map snd l) = length (flat_map fst l) /\
  combine (flat_map fst l) (flat_map snd l) = flat_map (fun s => combine (fst s) (snd s)) l.
Proof.
  induction 1 as [|s l B _ [IH1 IH2]]; simpl; auto. rewrite !app_length, combine_app, IH2 by auto. split; auto.
Qed.
Lemma call_balanced_combine {PD} (c : call PD) : call_balanced c ->
  length (call_data PD c) = length (call_points PD c) /\ combine (call_points PD c) (call_data PD c) = call_pairs c.
Proof. destruct c; simpl; auto. apply flat_map_balanced. Qed.
Theorem C02_data_lines_up : forall PD dbg fuel src calls b t,
  builder_of PD src calls = Done b -> triangulate dbg PD fuel (build PD b) = Done t ->
  balanced src -> Forall call_balanced calls ->
  length (triangles_data PD t) = length (triangles_points PD t) /\
  combine (triangles_points PD t) (triangles_data PD t) =
    combine (fst src) (snd src) ++ flat_map call_pairs calls.
Proof.
  intros PD dbg fuel src calls b t B T Bs Bc.
  rewrite (C01_points_in_call_order _ _ _ _ _ _ _ B T), (C02_data_in_call_order _ _ _ _ _ _ _ B T).
  unfold history_points, history_data. rewrite combine_app, !app_length by auto.
  assert (G : length (flat_map (call_data PD) calls) = length (flat_map (call_points PD) calls) /\
              combine (flat_map (call_points PD) calls) (flat_map (call_data PD) calls) = flat_map call_pairs calls).
  { clear B T. induction Bc as [|c calls Hc _ [IH1 IH2]]; simpl; auto.
    apply call_balanced_combine in Hc as [H1 H2]. rewrite !app_length, combine_app, H2, IH2 by auto. split; [lia|auto]. }
  destruct G as [G1 ->]. rewrite Bs, G1. auto.
Qed.

(** the same calls with the same points, but other data (even of another type) *)
Definition call_same {P P'} (c : call P) (c' : call P') : Prop :=
  match c, c' with
  | CHole _ s, CHole _ s' => fst s = fst s'
  | CSteiners _ s, CSteiners _ s' => fst s = fst s'
  | CHoles _ l, CHoles _ l' => map fst l = map fst l'
  | CSteiner _ p _, CSteiner _ p' _ => p = p'
  | _, _ => False
  end.
Definition same_points_builder {P P'} (r : res (Builder P)) (r' : res (Builder P')) : Prop :=
  match r, r' with
  | Done b, Done b' => bd_points b = bd_points b'
  | Panic p, Panic p' => p = p'
  | Ub u, Ub u' => u = u'
  | OutOfFuel, OutOfFuel => True
  | _, _ => False
  end.
Lemma add_hole_same {P P'} (b : Builder P) (b' : Builder P') s s' : bd_points b = bd_points b' -> fst s = fst s' ->
  same_points_builder (add_hole P b s) (add_hole P' b' s').
Proof. intros E1 E2. unfold add_hole. rewrite E1, E2. destruct (parse_polyline (fst s') (bd_points b')); simpl; auto. Qed.
Lemma add_holes_same {P P'} l : forall (b : Builder P) (b' : Builder P') l', bd_points b = bd_points b' -> map fst l = map fst l' ->
  same_points_builder (add_holes P b l) (add_holes P' b' l').
Proof.
  induction l as [|s l IH]; intros b b' [|s' l'] E1 E2; simpl in *; try discriminate; auto.
  injection E2 as E2 E3. pose proof (add_hole_same b b' s s' E1 E2) as H.
  destruct (add_hole P b s), (add_hole P' b' s'); simpl in *; try tauto. apply IH; auto.
Qed.
Lemma apply_call_same {P P'} (b : Builder P) (b' : Builder P') c c' : bd_points b = bd_points b' -> call_same c c' ->
  same_points_builder (apply_call P b c) (apply_call P' b' c').
Proof.
  intro E. destruct c, c'; simpl; try tauto; intro H.
  - apply add_hole_same; auto.
  - apply add_holes_same; auto.
  - rewrite E, H; auto.
  - rewrite E, H; auto.
Qed.
Lemma apply_calls_same {P P'} l l' : Forall2 (@call_same P P') l l' -> forall b b', bd_points b = bd_points b' ->
  same_points_builder (apply_calls P b l) (apply_calls P' b' l').
Proof.
  induction 1 as [|c c' l l' H _ IH]; simpl; intros b b' E; auto.
  pose proof (apply_call_same b b' c c' E H) as G.
  destruct (apply_call P b c), (apply_call P' b' c'); simpl in *; try tauto. auto.
Qed.
Definition same_triangulation {P P'} (r : res (Triangles P)) (r' : res (Triangles P')) : Prop :=
  match r, r' with
  | Done t, Done t' => tr_points t = tr_points t' /\ tr_triangles t = tr_triangles t' /\ tr_result t = tr_result t'
  | Panic p, Panic p' => p = p'
  | Ub u, Ub u' => u = u'
  | OutOfFuel, OutOfFuel => True
  | _, _ => False
  end.
Theorem C02_data_never_influences_triangulation : forall P P' dbg fuel src src' calls calls',
  fst src = fst src' -> Forall2 (@call_same P P') calls calls' ->
  same_triangulation (let! b := builder_of P src calls in triangulate dbg P fuel (build P b))
                     (let! b := builder_of P' src' calls' in triangulate dbg P' fuel (build P' b)).
Proof.
  intros P P' dbg fuel src src' calls calls' E H. unfold builder_of, builder_new. rewrite E.
  destruct (parse_polyline (fst src') pb_new); simpl; auto.
  pose proof (apply_calls_same calls calls' H (mkBuilder P a (snd src)) (mkBuilder P' a (snd src')) eq_refl) as G.
  destruct (apply_calls P _ calls), (apply_calls P' _ calls'); simpl in *; try tauto.
  unfold triangulate, triangulate_with_observer, build; simpl. rewrite G.
  destruct (run dbg fuel (pb_build (bd_points a1))) as [[]]; simpl; auto.
Qed.
End S.
Print Assumptions C01_points_in_call_order.
Print Assumptions C02_data_in_call_order.
Print Assumptions C02_data_lines_up.
Print Assumptions C02_data_never_influences_triangulation.

(** C03, for both float types and for all values, NaN included.  [repeats l]:
    for some i, points i and i+1 (cyclically) compare equal. *)
Theorem C03_builder_panics_iff_repeated_vertex_f64 : forall PD (src : @source F64 PD) calls,
  (Exists repeats (history_polylines PD src calls) /\ builder_of PD src calls = Panic P_repeat_points) \/
  (~ Exists repeats (history_polylines PD src calls) /\ exists b, builder_of PD src calls = Done b).
Proof. intros. apply builder_of_panics. exact F64_eq_not_lt. Qed.
Theorem C03_builder_panics_iff_repeated_vertex_f32 : forall PD (src : @source F32 PD) calls,
  (Exists repeats (history_polylines PD src calls) /\ builder_of PD src calls = Panic P_repeat_points) \/
  (~ Exists repeats (history_polylines PD src calls) /\ exists b, builder_of PD src calls = Done b).
Proof. intros. apply builder_of_panics. exact F32_eq_not_lt. Qed.
(** in particular a polyline with exactly one (non-NaN) vertex panics *)
Theorem C03_single_vertex_repeats : forall (p : @Point F64), f_eq (px p) (px p) = true -> f_eq (py p) (py p) = true ->
  repeats [p].
Proof. intros p H1 H2. exists 0, p, p. unfold point_eq. rewrite H1, H2. auto. Qed.
Print Assumptions C03_builder_panics_iff_repeated_vertex_f64.
Print Assumptions C03_builder_panics_iff_repeated_vertex_f32.

(** C35 *)
Theorem C35_sweep_order_permutation : forall {A : Arith} PD src calls b,
  builder_of PD src calls = Done b ->
  Permutation (ps_y_sorted (c_points (build PD b))) (seq 0 (length (history_points PD src calls))).
Proof.
  intros A PD src calls b B. apply builder_of_points in B as (B & _). rewrite <- B. apply y_sorted_perm.
Qed.
Theorem C35_sweep_order_sorted : forall {A : Arith} {E : Exact A} PD src calls b i j pi pj k l,
  builder_of PD src calls = Done b -> Forall finp (history_points PD src calls) ->
  nth_error (ps_y_sorted (c_points (build PD b))) k = Some i ->
  nth_error (ps_y_sorted (c_points (build PD b))) l = Some j -> k < l ->
  nth_error (history_points PD src calls) i = Some pi -> nth_error (history_points PD src calls) j = Some pj ->
  (zv (py pi) < zv (py pj))%Z \/ (zv (py pi) = zv (py pj) /\ (zv (px pi) <= zv (px pj))%Z).
Proof.
  intros A E PD src calls b i j pi pj k l B F Hk Hl L Hi Hj.
  apply builder_of_points in B as (B & _). rewrite <- B in *.
  pose proof (y_sorted_sorted _ (pb_edges (bd_points b)) F) as S.
  change (c_points (build PD b)) with (points_new (pb_points (bd_points b)) (pb_edges (bd_points b))) in *.
  revert k l Hk Hl L. induction S as [|x xs S IH H]; intros k l Hk Hl L; [destruct k; discriminate|].
  destruct l as [|l]; [lia|]. simpl in Hl. destruct k as [|k]; simpl in Hk.
  - injection Hk as <-. rewrite Forall_forall in H. apply nth_error_In in Hl. specialize (H _ Hl _ _ Hi Hj).
    unfold yle, ylt, zp in H; simpl in H. lia.
  - apply (IH k l); auto; lia.
Qed.
Print Assumptions C35_sweep_order_permutation.
Print Assumptions C35_sweep_order_sorted.

(** Non-vacuity: a concrete history with a hole, holes and Steiner points builds
    and triangulates. *)
Definition ex_src : @source F64 nat := (map pt64 [(0,0);(30,1);(31,29);(1,30)]%Z, [1;2;3;4]).
Definition ex_calls : list (@call F64 nat) :=
  [CHole nat (map pt64 [(10,10);(20,11);(15,19)]%Z, [5;6;7]); CSteiner nat (pt64 (3,4)%Z) 8;
   CHoles nat []; CSteiners nat (map pt64 [(25,24);(5,23)]%Z, [9;10])].
Definition ex_result : res (Triangles nat) :=
  let! b := builder_of nat ex_src ex_calls in triangulate false nat 200 (build nat b).
Example ex_history_runs :
  (match ex_result with Done t => (length (tr_result t), triangles_data nat t) | _ => (0, []) end)
  = (13, [1;2;3;4;5;6;7;8;9;10]).
Proof. vm_compute. reflexivity. Qed.
Example ex_history_balanced : balanced ex_src /\ Forall call_balanced ex_calls.
Proof. split; [reflexivity|]. repeat constructor. Qed.
Example ex_repeats : builder_of nat (map pt64 [(0,0);(30,1);(30,1)]%Z, [1;2;3]) [] = Panic P_repeat_points.
Proof. vm_compute. reflexivity. Qed.
Print Assumptions C03_single_vertex_repeats.
