(** * PropsMachine: C52 - 32-bit ids, and the freedom of the standard library, make no difference

    The model numbers the points with unbounded naturals, sorts by insertion and searches by halving.  The code
    casts [usize] to [u32] wherever it makes a [PointId] (points.rs:8, 47, 137, 168, 173), calls [sort_by], which
    promises a sorted permutation only, and [binary_search_by_key], which promises an index of the key or its
    place only.  Here the builder is modelled once more with ids modulo [W] ([W] is 2^32 in the code), and the two
    library functions by their contracts. *)
From Coq Require Import List Arith Bool Lia Permutation Sorted ZArith.
From Verif Require Import Base Num Shape Points Triangles Front Sweeper Cdt Lists BuilderSpec History SortSpec Exact FrontSpec F64 F64Exact FloatLaws Setup PropsTrace PropsMesh Spec TraceSpec PropsBuilder PropsRefuted PropsSafe.
Import ListNotations.

Section Wrap.
Context {A : Arith}.
Variable W : nat.
(** points.rs:8: [n as NumType], the cast that keeps the value modulo 2^32 *)
Definition cast (n : nat) : nat := n mod W.

(** points.rs:46-51 *)
Definition w_add_steiner_point (b : PointsBuilder) (p : Point) : pid * PointsBuilder :=
  (cast (length (pb_points b)), mkPB (pb_points b ++ [p]) (pb_edges b ++ [ENone])).
(** cdt.rs:267-271 *)
Fixpoint w_add_all (b : PointsBuilder) (l : list Point) : list (pid * Point) * PointsBuilder :=
  match l with
  | [] => ([], b)
  | p :: l' =>
      let '(id, b) := w_add_steiner_point b p in
      let '(ids, b) := w_add_all b l' in
      ((id, p) :: ids, b)
  end.
(** cdt.rs:265-290 *)
Definition w_parse_polyline (polyline : list Point) (b : PointsBuilder) : res PointsBuilder :=
  let '(ids, b) := w_add_all b polyline in
  match ids with
  | [] => Done b
  | first :: rest => polyline_edges b first first rest
  end.
Section Calls.
Variable PD : Type.
(** cdt.rs:83-93 *)
Definition w_builder_new (src : source PD) : res (Builder PD) :=
  let! b := w_parse_polyline (fst src) pb_new in Done (mkBuilder PD b (snd src)).
(** cdt.rs:113-119 *)
Definition w_add_hole (b : Builder PD) (src : source PD) : res (Builder PD) :=
  let! ps := w_parse_polyline (fst src) (bd_points b) in Done (mkBuilder PD ps (bd_data b ++ snd src)).
(** cdt.rs:122-130 *)
Fixpoint w_add_holes (b : Builder PD) (holes : list (source PD)) : res (Builder PD) :=
  match holes with
  | [] => Done b
  | h :: holes' => let! b := w_add_hole b h in w_add_holes b holes'
  end.
(** cdt.rs:98-130 *)
Definition w_apply_call (b : Builder PD) (c : call PD) : res (Builder PD) :=
  match c with
  | CHole _ s => w_add_hole b s
  | CHoles _ l => w_add_holes b l
  | CSteiner _ p d => Done (mkBuilder PD (snd (w_add_steiner_point (bd_points b) p)) (bd_data b ++ [d]))
  | CSteiners _ s => Done (add_steiner_points PD b s)
  end.
Fixpoint w_apply_calls (b : Builder PD) (l : list (call PD)) : res (Builder PD) :=
  match l with
  | [] => Done b
  | c :: l' => let! b := w_apply_call b c in w_apply_calls b l'
  end.
Definition w_builder_of (src : source PD) (calls : list (call PD)) : res (Builder PD) :=
  let! b := w_builder_new src in w_apply_calls b calls.
End Calls.
(** points.rs:123-187: the ids of the sorted points and of the two artificial ones are cast *)
Definition w_points_new (points : list Point) (edges : list PointEdges) : Points :=
  let sorted_ids := map fst (y_sort (map (fun ip => (cast (fst ip), snd ip)) (enumerate points))) in
  let n := length points in
  {| ps_points := points ++ [head_point points; tail_point points];
     ps_edges := edges ++ [ENone; ENone];
     ps_y_sorted := sorted_ids;
     ps_head := cast n;
     ps_tail := cast (S n) |}.
(** cdt.rs:133-139 *)
Definition w_build (PD : Type) (b : Builder PD) : CDT PD :=
  mkCDT PD (w_points_new (pb_points (bd_points b)) (pb_edges (bd_points b))) (bd_data b).

Lemma cast_small n : n < W -> cast n = n.
Proof. apply Nat.mod_small. Qed.
Lemma w_add_all_ok l : forall b, length (pb_points b) + length l <= W -> w_add_all b l = add_all b l.
Proof.
  induction l as [|p l IH]; intros b L; [reflexivity|]. cbn [length] in L. cbn [w_add_all add_all].
  unfold w_add_steiner_point, pb_add_steiner_point. rewrite cast_small by lia. cbn [fst snd].
  rewrite IH; [reflexivity|]. cbn [pb_points]. rewrite app_length. cbn [length]. lia.
Qed.
Lemma w_parse_ok l b : length (pb_points b) + length l <= W -> w_parse_polyline l b = parse_polyline l b.
Proof. intro L. unfold w_parse_polyline, parse_polyline. rewrite w_add_all_ok by exact L. reflexivity. Qed.
Section CallsOk.
Variable PD : Type.
Notation np b := (length (pb_points (@bd_points A PD b))).
Lemma w_add_hole_ok b s : np b + length (fst s) <= W -> w_add_hole PD b s = add_hole PD b s.
Proof. intro L. unfold w_add_hole, add_hole. rewrite w_parse_ok by exact L. reflexivity. Qed.
Lemma w_add_holes_ok l : forall b, bd_wf PD b -> np b + length (flat_map fst l) <= W -> w_add_holes PD b l = add_holes PD b l.
Proof.
  induction l as [|s l IH]; intros b WF L; [reflexivity|]. cbn [flat_map] in L. rewrite app_length in L. cbn [w_add_holes add_holes].
  rewrite w_add_hole_ok by lia. destruct (add_hole PD b s) as [b'| | |] eqn:Q; cbn [rbind]; try reflexivity.
  destruct (add_hole_points PD _ _ _ WF Q) as (P & _ & WF'). apply IH; auto. rewrite P, app_length. lia.
Qed.
Lemma w_apply_ok b c : bd_wf PD b -> np b + length (call_points PD c) <= W -> w_apply_call PD b c = apply_call PD b c.
Proof.
  intros WF L. destruct c; cbn [w_apply_call apply_call call_points] in *.
  - apply w_add_hole_ok; exact L.
  - apply w_add_holes_ok; assumption.
  - reflexivity.
  - reflexivity.
Qed.
Lemma w_apply_calls_ok l : forall b, bd_wf PD b -> np b + length (flat_map (call_points PD) l) <= W -> w_apply_calls PD b l = apply_calls PD b l.
Proof.
  induction l as [|c l IH]; intros b WF L; [reflexivity|]. cbn [flat_map] in L. rewrite app_length in L. cbn [w_apply_calls apply_calls].
  rewrite w_apply_ok by (auto; lia). destruct (apply_call PD b c) as [b'| | |] eqn:Q; cbn [rbind]; try reflexivity.
  destruct (apply_call_points PD _ _ _ WF Q) as (P & _ & WF'). apply IH; auto. rewrite P, app_length. lia.
Qed.
End CallsOk.

(** *** C52 (1).  As long as the input and the two artificial points together are at most W, the code with ids
    modulo W builds the same store as the model - or panics at the same place. *)
Theorem C52_ids_fit : forall PD (src : source PD) calls, length (history_points PD src calls) + 2 <= W ->
  w_builder_of PD src calls = builder_of PD src calls /\
  forall b, builder_of PD src calls = Done b -> w_build PD b = build PD b.
Proof.
  intros PD src calls L. assert (L' := L). unfold history_points in L'. rewrite app_length in L'. split.
  - unfold w_builder_of, builder_of, w_builder_new, builder_new. rewrite w_parse_ok by (cbn [pb_new pb_points length]; lia).
    destruct (parse_polyline (fst src) pb_new) as [pb| | |] eqn:Q; cbn [rbind]; try reflexivity.
    destruct (parse_polyline_points _ _ _ pb_new_wf Q) as [P WF]. apply w_apply_calls_ok; [exact WF|]. cbn [bd_points]. rewrite P, app_length. cbn [pb_new pb_points length]. lia.
  - intros b B. destruct (builder_of_points PD src calls b B) as (P & _ & _). rewrite <- P in L.
    unfold w_build, build, pb_build, w_points_new, points_new. rewrite !cast_small by lia.
    replace (map (fun ip : nat * Point => (cast (fst ip), snd ip)) (enumerate (pb_points (bd_points b)))) with (enumerate (pb_points (bd_points b))); [reflexivity|].
    rewrite <- (map_id (enumerate _)) at 1. apply map_ext_in. intros [i p] I'. apply enumerate_in in I'. cbn [fst snd].
    assert (i < length (pb_points (bd_points b))) by (apply nth_error_Some; congruence). rewrite cast_small by lia. reflexivity.
Qed.
(** ... and no sooner: the points number k and k + W of the outline get the same id *)
Lemma w_add_all_ids l : forall b k x, nth_error (fst (w_add_all b l)) k = Some x -> fst x = cast (length (pb_points b) + k) /\ nth_error l k = Some (snd x).
Proof.
  induction l as [|p l IH]; intros b k x H; [destruct k; discriminate|]. cbn [w_add_all] in H. unfold w_add_steiner_point in H.
  specialize (IH (mkPB (pb_points b ++ [p]) (pb_edges b ++ [ENone]))). destruct (w_add_all _ l) as [ids b'] eqn:Q. cbn [fst] in *.
  destruct k as [|k]; cbn [nth_error] in H; [injection H as <-; cbn [fst snd nth_error]; rewrite Nat.add_0_r; auto|].
  destruct (IH k x H) as [H1 H2]. cbn [pb_points] in H1. rewrite app_length in H1. cbn [length] in H1. split; [rewrite H1; f_equal; lia|exact H2].
Qed.
Theorem C52_more_points_share_ids : forall (polyline : list Point) k x y, 0 < W ->
  nth_error (fst (w_add_all pb_new polyline)) k = Some x -> nth_error (fst (w_add_all pb_new polyline)) (k + W) = Some y -> fst x = fst y.
Proof.
  intros l k x y WP Hx Hy. destruct (w_add_all_ids _ _ _ _ Hx) as [-> _]. destruct (w_add_all_ids _ _ _ _ Hy) as [-> _].
  cbn [pb_new pb_points length plus]. unfold cast. replace (k + W) with (k + 1 * W) by lia. rewrite Nat.mod_add by lia. reflexivity.
Qed.
End Wrap.

Section Library.
Context {A : Arith} {E : Exact A}.

(** *** C52 (2).  [sort_by]: whatever algorithm is used, if it returns a permutation of the ids with no point before a
    lower one, it returns what the model computes. *)
Theorem C52_any_sort : forall (points : list Point) edges (order : list pid),
  Forall finp points ->
  (forall i j p q, nth_error points i = Some p -> nth_error points j = Some q -> zp p = zp q -> i = j) ->
  Permutation order (seq 0 (length points)) ->
  (forall k l i j p q, k < l -> nth_error order k = Some i -> nth_error order l = Some j ->
     nth_error points i = Some p -> nth_error points j = Some q -> y_less q p = false) ->
  order = ps_y_sorted (points_new points edges).
Proof.
  intros points edges order F INJ P S.
  set (lt i j := match nth_error points i, nth_error points j with Some p, Some q => ylt (zp p) (zp q) | _, _ => False end).
  assert (RG : forall l, Permutation l (seq 0 (length points)) -> forall i, In i l -> exists p, nth_error points i = Some p /\ finp p).
  { intros l PL i Ii. apply (Permutation_in _ PL), in_seq in Ii. destruct (nth_error points i) as [p|] eqn:Q; [|apply nth_error_None in Q; lia].
    exists p. split; auto. rewrite Forall_forall in F. apply F. eapply nth_error_In; eauto. }
  assert (ST : forall l, Permutation l (seq 0 (length points)) ->
    (forall k k' i j p q, k < k' -> nth_error l k = Some i -> nth_error l k' = Some j -> nth_error points i = Some p -> nth_error points j = Some q -> y_less q p = false) ->
    forall k k' i j, k < k' -> nth_error l k = Some i -> nth_error l k' = Some j -> lt i j).
  { intros l PL SL k k' i j Lk Hi Hj. destruct (RG l PL i ltac:(eapply nth_error_In; eauto)) as (p & Hp & Fp). destruct (RG l PL j ltac:(eapply nth_error_In; eauto)) as (q & Hq & Fq).
    unfold lt. rewrite Hp, Hq. pose proof (SL _ _ _ _ _ _ Lk Hi Hj Hp Hq) as NL.
    assert (N : ~ ylt (zp q) (zp p)) by (rewrite <- y_less_exact by auto; congruence).
    assert (ND : NoDup l) by (apply (Permutation_NoDup (Permutation_sym PL)), seq_NoDup).
    assert (NE : zp p <> zp q). { intro Q. pose proof (INJ _ _ _ _ Hp Hq Q) as ->. rewrite NoDup_nth_error in ND. assert (k = k'); [|lia]. apply ND; [apply nth_error_Some; congruence|congruence]. }
    unfold ylt in *. destruct (zp p) as [a1 a2], (zp q) as [b1 b2]. cbn [fst snd] in *.
    destruct (Z.lt_trichotomy a2 b2) as [|[->|]]; [left; auto| |exfalso; apply N; auto]. right. split; auto.
    destruct (Z.lt_trichotomy a1 b1) as [|[->|]]; [auto|congruence|exfalso; apply N; auto]. }
  pose proof (y_sorted_perm points edges) as P'. set (order' := ps_y_sorted (points_new points edges)) in *.
  assert (S' : forall k k' i j, k < k' -> nth_error order' k = Some i -> nth_error order' k' = Some j -> lt i j).
  { apply ST; [exact P'|]. intros k k' i j p q Lk Hi Hj Hp Hq. pose proof (y_sorted_sorted points edges F) as SS. fold order' in SS.
    destruct (y_less q p) eqn:Y; auto. exfalso. pose proof F as F'. rewrite Forall_forall in F'.
    assert (Fp := F' p ltac:(eapply nth_error_In; eauto)). assert (Fq := F' q ltac:(eapply nth_error_In; eauto)). apply y_less_exact in Y; auto.
    clear - SS Lk Hi Hj Hp Hq Y. revert k k' Lk Hi Hj. induction SS as [|x l SS IH H]; intros k k' Lk Hi Hj; [destruct k; discriminate|].
    destruct k' as [|k']; [lia|]. cbn [nth_error] in Hj. destruct k as [|k]; cbn [nth_error] in Hi.
    - injection Hi as ->. rewrite Forall_forall in H. specialize (H j ltac:(eapply nth_error_In; eauto)). apply (H p q Hp Hq). exact Y.
    - apply (IH k k'); auto. lia. }
  specialize (ST order P S). clear S.
  assert (T : Permutation order order') by (etransitivity; [exact P|symmetry; exact P']).
  clear P P' RG INJ F. clearbody order'. assert (LI : forall i j, lt i j -> lt j i -> False).
  { intros i j. unfold lt. destruct (nth_error points i), (nth_error points j); auto. unfold ylt. lia. }
  revert order' T S' ST. induction order as [|x l IH]; intros l' T S' ST; [apply Permutation_nil in T; auto|].
  destruct l' as [|y l']; [symmetry in T; apply Permutation_nil in T; discriminate|].
  assert (x = y) as ->.
  { assert (I1 : In x (y :: l')) by (apply (Permutation_in _ T); left; auto). assert (I2 : In y (x :: l)) by (apply (Permutation_in _ (Permutation_sym T)); left; auto).
    destruct I1 as [|I1]; [auto|]. destruct I2 as [|I2]; [auto|]. apply In_nth_error in I1 as [a Ha]. apply In_nth_error in I2 as [c Hc].
    destruct (LI y x); [apply (S' 0 (S a) y x); auto; lia|apply (ST 0 (S c) x y); auto; lia]. }
  f_equal. apply Permutation_cons_inv in T. apply IH; auto.
  - intros k k' i j Lk Hi Hj. apply (S' (S k) (S k')); auto. lia.
  - intros k k' i j Lk Hi Hj. apply (ST (S k) (S k')); auto. lia.
Qed.

(** *** C52 (3).  [binary_search_by_key]: the index of a node with the key, or the place where it would go *)
Definition search_contract (l : list Entry) (key : Point) (r : found) : Prop :=
  match r with
  | FOk i => exists e, nth_error l i = Some e /\ key_cmp (en_key e) key = Eq
  | FErr i => i <= length l /\
      (forall j e, j < i -> nth_error l j = Some e -> key_cmp (en_key e) key = Lt) /\
      (forall j e, i <= j -> nth_error l j = Some e -> key_cmp (en_key e) key = Gt)
  end.
Theorem C52_any_search : forall (l : list Entry) (key : Point) (r : found), increasing l -> finp key ->
  search_contract l key r -> r = bsearch l key.
Proof.
  intros l key r I Fk C.
  assert (B : search_ok l key (bsearch l key)).
  { unfold bsearch. apply bsearch_loop_ok; auto; try lia. intros j e Lj Hj. pose proof (nth_error_lt _ _ _ Hj). lia. }
  assert (KC : forall j e, nth_error l j = Some e -> key_cmp (en_key e) key = zcmp (zp (en_key e)) (zp key)).
  { intros j e He. apply key_cmp_exact; auto. eapply inc_fin; eauto. }
  assert (CM : forall a b, (zcmp a b = Eq <-> a = b) /\ (zcmp a b = Lt <-> xlt a b) /\ (zcmp a b = Gt <-> xlt b a)).
  { intros [a1 a2] [b1 b2]. unfold zcmp, xlt. cbn [fst snd]. destruct (Z.compare_spec a1 b1), (Z.compare_spec a2 b2); subst; repeat split; intro Q; try discriminate; try lia; try (injection Q; lia); f_equal; lia. }
  assert (C' : search_ok l key r).
  { destruct r as [i|i]; cbn [search_contract search_ok] in *.
    - destruct C as (e & He & Q). exists e. split; auto. rewrite (KC _ _ He) in Q. apply CM. exact Q.
    - destruct C as (C1 & C2 & C3). split; auto. split; intros j e Lj Hj; [specialize (C2 _ _ Lj Hj); rewrite (KC _ _ Hj) in C2; exact (proj1 (proj1 (proj2 (CM _ _))) C2)|specialize (C3 _ _ Lj Hj); rewrite (KC _ _ Hj) in C3; exact (proj1 (proj2 (proj2 (CM _ _))) C3)]. }
  clear C KC CM. set (r' := bsearch l key) in *. clearbody r'.
  assert (NX : forall a, ~ xlt a a) by (intros a; unfold xlt; lia). assert (AS : forall a b, xlt a b -> xlt b a -> False) by (intros a b; unfold xlt; lia).
  assert (INC : forall i j e f, nth_error l i = Some e -> nth_error l j = Some f -> zp (en_key e) = zp (en_key f) -> i = j).
  { intros i j e f He Hf Q. destruct I as [_ I]. destruct (Nat.lt_total i j) as [L|[L|L]]; auto; exfalso.
    - specialize (I _ _ _ _ L He Hf). rewrite Q in I. exact (NX _ I).
    - specialize (I _ _ _ _ L Hf He). rewrite Q in I. exact (NX _ I). }
  destruct r as [i|i], r' as [j|j]; cbn [search_ok] in *.
  - destruct C' as (e & He & Qe), B as (f & Hf & Qf). f_equal. apply (INC _ _ _ _ He Hf). congruence.
  - exfalso. destruct C' as (e & He & Qe), B as (B1 & B2 & B3). destruct (Nat.lt_ge_cases i j) as [L|L]; [specialize (B2 _ _ L He); rewrite Qe in B2; exact (NX _ B2)|specialize (B3 _ _ L He); rewrite Qe in B3; exact (NX _ B3)].
  - exfalso. destruct B as (e & He & Qe), C' as (B1 & B2 & B3). destruct (Nat.lt_ge_cases j i) as [L|L]; [specialize (B2 _ _ L He); rewrite Qe in B2; exact (NX _ B2)|specialize (B3 _ _ L He); rewrite Qe in B3; exact (NX _ B3)].
  - f_equal. destruct C' as (C1 & C2 & C3), B as (B1 & B2 & B3). destruct (Nat.lt_total i j) as [L|[L|L]]; auto; exfalso.
    + destruct (nth_error_ex l i) as [e He]; [lia|]. exact (AS _ _ (B2 _ _ L He) (C3 _ _ (Nat.le_refl _) He)).
    + destruct (nth_error_ex l j) as [e He]; [lia|]. exact (AS _ _ (C2 _ _ L He) (B3 _ _ (Nat.le_refl _) He)).
Qed.
End Library.

(** [u32] *)
Definition u32 : nat := N.to_nat (2 ^ 32).
Theorem C52_32_bit_ids : forall {A : Arith} PD (src : source PD) calls, (N.of_nat (length (history_points PD src calls)) + 2 <= 2 ^ 32)%N ->
  w_builder_of u32 PD src calls = builder_of PD src calls /\ forall b, builder_of PD src calls = Done b -> w_build u32 PD b = build PD b.
Proof. intros A PD src calls L. apply C52_ids_fit. unfold u32. lia. Qed.

(** Non-vacuity: five ids for the five points of a pentagon with W = 7, but with W = 4 the store is another one; the
    order of its points; a search. *)
Definition penta : list (@Point F64) := map pt64 [(0, 0); (4, 1); (5, 4); (2, 6); (-1, 3)]%Z.
Definition edges_of (r : res (@Builder F64 unit)) : option (list PointEdges) := match r with Done b => Some (pb_edges (bd_points b)) | _ => None end.
Example machine_example :
  length (history_points unit (penta, repeat tt 5) []) + 2 <= 7 /\
  (exists b, builder_of unit (penta, repeat tt 5) [] = Done b) /\
  w_builder_of 4 unit (penta, repeat tt 5) [] <> builder_of unit (penta, repeat tt 5) [] /\
  Forall (@finp F64 _) penta /\
  [0; 1; 4; 2; 3] = ps_y_sorted (points_new penta []) /\
  search_contract (map (fun p => mkEntry p 0 None) [pt64 (0, 0); pt64 (2, 6)]%Z) (pt64 (1, 1))%Z (FErr 1).
Proof.
  split; [cbn; lia|]. split.
  { assert (R : match builder_of unit (penta, repeat tt 5) [] with Done _ => true | _ => false end = true) by (vm_compute; reflexivity).
    destruct (builder_of unit (penta, repeat tt 5) []) as [b| | |]; try discriminate. exists b; reflexivity. }
  split.
  { intro Q. apply (f_equal edges_of) in Q. revert Q.
    assert (R1 : edges_of (builder_of unit (penta, repeat tt 5) []) = Some [ENone; EOne 0; EOne 1; ETwo 2 4; EOne 0]) by (vm_compute; reflexivity).
    rewrite R1. vm_compute. discriminate. }
  split; [repeat constructor; vm_compute; reflexivity|]. split; [vm_compute; reflexivity|].
  cbn [search_contract map length]. split; [lia|]. split; intros j e Lj Hj; (destruct j as [|[|j]]; cbn [nth_error] in Hj; [injection Hj as <-|injection Hj as <-|destruct j; discriminate]; try lia; vm_compute; reflexivity).
Qed.
Print Assumptions C52_ids_fit.
Print Assumptions C52_32_bit_ids.
Print Assumptions C52_more_points_share_ids.
Print Assumptions C52_any_sort.
Print Assumptions C52_any_search.
