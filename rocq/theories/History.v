(** * History: sequences of builder calls, and what they amount to

    The specification side ([call], [history_points], [history_data],
    [history_edges]) does not mention the builder's state. *)
From Coq Require Import List Arith Bool Lia Permutation.
From Verif Require Import Base Num Shape Points Triangles Front Sweeper Cdt Lists BuilderSpec.
Import ListNotations.

Section S.
Context {A : Arith}.
Variable PD : Type.

(** One call on the builder after [Builder::new]. *)
Inductive call :=
| CHole (s : source PD)               (* add_hole *)
| CHoles (l : list (source PD))       (* add_holes *)
| CSteiner (p : Point) (d : PD)       (* add_steiner_point *)
| CSteiners (s : source PD).          (* add_steiner_points *)

Definition apply_call (b : Builder PD) (c : call) : res (Builder PD) :=
  match c with
  | CHole s => add_hole PD b s
  | CHoles l => add_holes PD b l
  | CSteiner p d => Done (add_steiner_point PD b p d)
  | CSteiners s => Done (add_steiner_points PD b s)
  end.
Fixpoint apply_calls (b : Builder PD) (l : list call) : res (Builder PD) :=
  match l with
  | [] => Done b
  | c :: l' => let! b := apply_call b c in apply_calls b l'
  end.
(** [Builder::new(src)] followed by the calls *)
Definition builder_of (src : source PD) (calls : list call) : res (Builder PD) :=
  let! b := builder_new PD src in apply_calls b calls.

(** ** Specification *)
Definition call_points (c : call) : list Point :=
  match c with
  | CHole s | CSteiners s => fst s
  | CHoles l => flat_map fst l
  | CSteiner p _ => [p]
  end.
Definition call_data (c : call) : list PD :=
  match c with
  | CHole s | CSteiners s => snd s
  | CHoles l => flat_map snd l
  | CSteiner _ d => [d]
  end.
Definition history_points (src : source PD) (calls : list call) : list Point :=
  fst src ++ flat_map call_points calls.
Definition history_data (src : source PD) (calls : list call) : list PD :=
  snd src ++ flat_map call_data calls.

(** the index pairs of a closed polyline of n points stored from index k on *)
Definition cyc (k n : nat) : list (nat * nat) :=
  map (fun i => (k + i, k + (S i) mod n)) (seq 0 n).
Fixpoint holes_edges (k : nat) (l : list (source PD)) : list (nat * nat) :=
  match l with [] => [] | s :: l' => cyc k (length (fst s)) ++ holes_edges (k + length (fst s)) l' end.
Definition call_edges (k : nat) (c : call) : list (nat * nat) :=
  match c with
  | CHole s => cyc k (length (fst s))
  | CHoles l => holes_edges k l
  | _ => []
  end.
Fixpoint calls_edges (k : nat) (l : list call) : list (nat * nat) :=
  match l with [] => [] | c :: l' => call_edges k c ++ calls_edges (k + length (call_points c)) l' end.
(** all polyline edges, as pairs of indices into [history_points] *)
Definition history_edges (src : source PD) (calls : list call) : list (nat * nat) :=
  cyc 0 (length (fst src)) ++ calls_edges (length (fst src)) calls.

(** the pair with its (y, then x)-lower endpoint first *)
Definition lower_first (pts : list Point) (ij : nat * nat) : Edge :=
  match nth_error pts (fst ij), nth_error pts (snd ij) with
  | Some a, Some b => if y_less b a then mkEdge (snd ij) (fst ij) else mkEdge (fst ij) (snd ij)
  | _, _ => mkEdge (fst ij) (snd ij)
  end.

(** ** The builder does that *)
Definition bd_wf (b : Builder PD) : Prop := wf_pb (bd_points b).

Lemma add_hole_points b s b' : bd_wf b -> add_hole PD b s = Done b' ->
  pb_points (bd_points b') = pb_points (bd_points b) ++ fst s /\ bd_data b' = bd_data b ++ snd s /\ bd_wf b'.
Proof.
  intros W. unfold add_hole. destruct (parse_polyline (fst s) (bd_points b)) eqn:E; try discriminate.
  intro H; injection H as <-. apply parse_polyline_points in E as [E1 E2]; auto.
Qed.
Lemma add_holes_points l : forall b b', bd_wf b -> add_holes PD b l = Done b' ->
  pb_points (bd_points b') = pb_points (bd_points b) ++ flat_map fst l /\
  bd_data b' = bd_data b ++ flat_map snd l /\ bd_wf b'.
Proof.
  induction l as [|s l IH]; simpl; intros b b' W H.
  - injection H as <-. rewrite !app_nil_r; auto.
  - destruct (add_hole PD b s) eqn:E; try discriminate. simpl in H.
    apply add_hole_points in E as (E1 & E2 & E3); auto.
    apply IH in H as (H1 & H2 & H3); auto. rewrite H1, H2, E1, E2, !app_assoc; auto.
Qed.
Lemma steiners_wf b ps : wf_pb b -> pb_points (pb_add_steiner_points b ps) = pb_points b ++ ps /\
  pb_edges (pb_add_steiner_points b ps) = pb_edges b ++ repeat ENone (length ps) /\ wf_pb (pb_add_steiner_points b ps).
Proof.
  unfold wf_pb, pb_add_steiner_points, vec_resize; simpl. intro W.
  rewrite app_length. rewrite firstn_all2 by lia.
  replace (length (pb_points b) + length ps - length (pb_edges b)) with (length ps) by lia.
  rewrite !app_length, repeat_length. auto.
Qed.
Lemma apply_call_points c : forall b b', bd_wf b -> apply_call b c = Done b' ->
  pb_points (bd_points b') = pb_points (bd_points b) ++ call_points c /\
  bd_data b' = bd_data b ++ call_data c /\ bd_wf b'.
Proof.
  destruct c; simpl; intros b b' W H.
  - apply add_hole_points; auto.
  - apply add_holes_points; auto.
  - injection H as <-. simpl. split; [auto|]. split; [auto|]. unfold bd_wf, wf_pb in *; simpl. rewrite !app_length; simpl; lia.
  - injection H as <-. simpl. destruct (steiners_wf (bd_points b) (fst s) W) as (H1 & H2 & H3). auto.
Qed.
Lemma apply_calls_points l : forall b b', bd_wf b -> apply_calls b l = Done b' ->
  pb_points (bd_points b') = pb_points (bd_points b) ++ flat_map call_points l /\
  bd_data b' = bd_data b ++ flat_map call_data l /\ bd_wf b'.
Proof.
  induction l as [|c l IH]; simpl; intros b b' W H.
  - injection H as <-. rewrite !app_nil_r; auto.
  - destruct (apply_call b c) eqn:E; try discriminate. simpl in H.
    apply apply_call_points in E as (E1 & E2 & E3); auto.
    apply IH in H as (H1 & H2 & H3); auto. rewrite H1, H2, E1, E2, !app_assoc; auto.
Qed.
Lemma pb_new_wf : wf_pb pb_new.
Proof. reflexivity. Qed.
Theorem builder_of_points src calls b : builder_of src calls = Done b ->
  pb_points (bd_points b) = history_points src calls /\ bd_data b = history_data src calls /\ bd_wf b.
Proof.
  unfold builder_of, builder_new. destruct (parse_polyline (fst src) pb_new) eqn:E; try discriminate. simpl.
  apply parse_polyline_points in E as [E1 E2]; [|apply pb_new_wf].
  intro H. apply apply_calls_points in H as (H1 & H2 & H3); auto.
  rewrite H1, H2; simpl. rewrite E1; auto.
Qed.

(** *** stored edges *)
Lemma cyc_chain k n : map (fun xy : nat * nat => xy) (combine (seq k n) (seq (S k) (n - 1) ++ [k])) = cyc k n \/ n = 0.
Proof.
  destruct n as [|n]; [auto|left]. rewrite map_id.
  apply nth_ext with (d := (0,0)) (d' := (0,0)).
  { unfold cyc. rewrite map_length, combine_length, app_length, !seq_length. cbn [length]; lia. }
  intros i Hi. rewrite combine_length, app_length, !seq_length in Hi. cbn [length] in Hi. assert (Hi2 : i < S n) by lia. clear Hi; rename Hi2 into Hi.
  rewrite combine_nth by (rewrite app_length, !seq_length; simpl; lia).
  unfold cyc. rewrite nth_indep with (d' := (fun i => (k + i, k + (S i) mod (S n))) 0) by (rewrite map_length, seq_length; lia).
  rewrite map_nth with (f := fun i => (k + i, k + (S i) mod (S n))).
  rewrite !seq_nth by lia. rewrite Nat.add_0_l.
  destruct (Nat.eq_dec i n) as [->|N].
  - rewrite Nat.mod_same by lia. rewrite app_nth2; rewrite seq_length; [|lia].
    replace (n - (S n - 1)) with 0 by lia. simpl. rewrite Nat.add_0_r; auto.
  - rewrite app_nth1 by (rewrite seq_length; lia). rewrite seq_nth by lia.
    rewrite Nat.mod_small by lia. f_equal; lia.
Qed.

Lemma combine_map {X X' Y Y'} (f : X -> X') (g : Y -> Y') l : forall l',
  map (fun xy => (f (fst xy), g (snd xy))) (combine l l') = combine (map f l) (map g l').
Proof. induction l; intros [|y l']; simpl; f_equal; auto. Qed.
Lemma map_fst_combine_seq {T} (l : list T) : forall k, map fst (combine (seq k (length l)) l) = seq k (length l).
Proof. induction l; intro k; simpl; f_equal; auto. Qed.
Lemma cyc_pairs_fst k (l : list Point) :
  map (fun xy => (fst (fst xy), fst (snd xy))) (cyc_pairs (combine (seq k (length l)) l)) = cyc k (length l).
Proof.
  destruct l as [|p l]; [reflexivity|].
  destruct (cyc_chain k (S (length l))) as [E|E]; [|discriminate].
  rewrite map_id in E. simpl length. rewrite <- E. clear E.
  cbn [seq combine cyc_pairs]. unfold chain. rewrite combine_map. simpl. rewrite map_app. simpl.
  rewrite map_fst_combine_seq. rewrite Nat.sub_0_r. reflexivity.
Qed.
Lemma in_combine_seq {T} (l : list T) k i x : In (i, x) (combine (seq k (length l)) l) -> k <= i /\ nth_error l (i - k) = Some x.
Proof.
  revert k; induction l as [|y l IH]; intros k; simpl; [tauto|].
  intros [H|H].
  - injection H as -> ->. rewrite Nat.sub_diag; auto.
  - apply IH in H as [H1 H2]. split; [lia|]. replace (i - k) with (S (i - S k)) by lia. auto.
Qed.
Lemma cyc_pairs_in k (l : list Point) x y :
  In (x, y) (cyc_pairs (combine (seq k (length l)) l)) ->
  nth_error l (fst x - k) = Some (snd x) /\ k <= fst x /\ nth_error l (fst y - k) = Some (snd y) /\ k <= fst y.
Proof.
  intro H. assert (G : In x (combine (seq k (length l)) l) /\ In y (combine (seq k (length l)) l)).
  { destruct l as [|p l]; [destruct H|]. cbn [length seq combine cyc_pairs] in *. unfold chain in H.
    split.
    - eapply in_combine_l; eauto.
    - apply in_combine_r in H. apply in_app_or in H as [H|[H|[]]]; [right; auto|left; auto]. }
  destruct G as [G1 G2]. destruct x, y. apply in_combine_seq in G1 as []; apply in_combine_seq in G2 as []. auto.
Qed.


(** [==] is symmetric and excludes [<] both ways *)
Definition eq_sym : Prop := forall x y, f_eq x y = f_eq y x.
Lemma edge_new_lower i a j b e : eq_sym -> edge_new i a j b = Done e ->
  e = if y_less b a then mkEdge j i else mkEdge i j.
Proof.
  intro Sy. unfold edge_new, y_less. destruct (f_lt (py b) (py a)); [congruence|].
  rewrite (Sy (py b) (py a)). destruct (f_eq (py a) (py b)); [|congruence].
  destruct (f_lt (px b) (px a)); [congruence|]. destruct (f_eq (px a) (px b)); congruence.
Qed.

Lemma lower_first_app pts pts' ij : fst ij < length pts -> snd ij < length pts ->
  lower_first (pts ++ pts') ij = lower_first pts ij.
Proof. intros H1 H2. unfold lower_first. rewrite !nth_error_app1 by auto. reflexivity. Qed.

Lemma cyc_bound k n ij : In ij (cyc k n) -> k <= fst ij < k + n /\ k <= snd ij < k + n.
Proof.
  unfold cyc. rewrite in_map_iff. intros (i & <- & H). apply in_seq in H. simpl.
  assert (S i mod n < n) by (apply Nat.mod_upper_bound; lia). lia.
Qed.

Lemma parse_polyline_stored l b b' : eq_not_lt -> eq_sym -> wf_pb b -> parse_polyline l b = Done b' ->
  Permutation (stored (pb_edges b'))
    (map (lower_first (pb_points b')) (cyc (length (pb_points b)) (length l)) ++ stored (pb_edges b)).
Proof.
  intros L Sy W H. destruct (parse_polyline_ok l b L W) as [[C E]|[C (b'' & es & E & F & P)]]; [congruence|].
  rewrite H in E. injection E as <-.
  apply parse_polyline_points in H as [H1 H2]; auto.
  rewrite P. apply Permutation_app; [|reflexivity].
  rewrite <- cyc_pairs_fst, map_map. rewrite H1.
  assert (Q : es = map (fun xy => lower_first (pb_points b ++ l) (fst (fst xy), fst (snd xy)))
                 (cyc_pairs (combine (seq (length (pb_points b)) (length l)) l))).
  { clear P C. set (k := length (pb_points b)) in *.
    assert (G : forall x y, In (x, y) (cyc_pairs (combine (seq k (length l)) l)) ->
       nth_error (pb_points b ++ l) (fst x) = Some (snd x) /\ nth_error (pb_points b ++ l) (fst y) = Some (snd y)).
    { intros x y I. apply cyc_pairs_in in I as (I1 & I2 & I3 & I4).
      rewrite !nth_error_app2 by auto. auto. }
    revert G F. generalize (cyc_pairs (combine (seq k (length l)) l)) as prs. intros prs G F.
    induction F as [|[x y] e prs es He F IH]; [reflexivity|]. simpl. f_equal.
    - unfold lower_first; simpl. destruct (G x y (or_introl eq_refl)) as [-> ->].
      unfold edge_of in He; simpl in He. apply edge_new_lower in He; auto.
    - apply IH. intros; apply G; right; auto. }
  rewrite Q. reflexivity.
Qed.

(** the ends of an edge have coordinates, and different ones *)
Definition apart (pts : list Point) (ij : nat * nat) : Prop :=
  exists a b, nth_error pts (fst ij) = Some a /\ nth_error pts (snd ij) = Some b /\ ~ coincide a b.
Lemma apart_lt pts ij : apart pts ij -> fst ij < length pts /\ snd ij < length pts.
Proof. intros (a & b & H1 & H2 & _). apply nth_error_lt in H1, H2. auto. Qed.
Lemma apart_app pts pts' ij : apart pts ij -> apart (pts ++ pts') ij.
Proof.
  intro H. pose proof (apart_lt _ _ H) as [L1 L2]. destruct H as (a & b & H1 & H2 & N).
  exists a, b. rewrite !nth_error_app1 by auto. auto.
Qed.
Lemma parse_polyline_apart l b b' ij : eq_not_lt -> wf_pb b -> parse_polyline l b = Done b' ->
  In ij (cyc (length (pb_points b)) (length l)) -> apart (pb_points b') ij.
Proof.
  intros L W H Hij. destruct (parse_polyline_ok l b L W) as [[C E]|[C (b'' & es & E & F & P)]]; [congruence|].
  apply parse_polyline_points in H as [H1 H2]; auto. rewrite H1.
  rewrite <- cyc_pairs_fst in Hij. apply in_map_iff in Hij as ([x y] & <- & I).
  pose proof (cyc_pairs_in _ _ _ _ I) as (I1 & I2 & I3 & I4).
  exists (snd x), (snd y). simpl. rewrite !nth_error_app2 by auto. split; [auto|]. split; [auto|].
  assert (G : exists e, edge_of (x, y) = Done e).
  { clear P. revert I F. generalize (cyc_pairs (combine (seq (length (pb_points b)) (length l)) l)) as prs.
    intros prs I F. induction F as [|xy e prs es He F IH]; [destruct I|]. destruct I as [->|I]; [exists e; exact He|apply IH; auto]. }
  destruct G as [e G]. unfold edge_of in G; simpl in G.
  destruct (edge_new_cases (fst x) (snd x) (fst y) (snd y) L) as [[_ G']|[N _]]; [congruence|auto].
Qed.

Definition edges_ok (b : Builder PD) (es : list (nat * nat)) : Prop :=
  bd_wf b /\ (forall ij, In ij es -> apart (pb_points (bd_points b)) ij) /\
  Permutation (stored (pb_edges (bd_points b))) (map (lower_first (pb_points (bd_points b))) es).

Lemma edges_ok_extend (b : Builder PD) es pts : 
  (forall ij, In ij es -> apart (pb_points (bd_points b)) ij) ->
  map (lower_first (pb_points (bd_points b) ++ pts)) es = map (lower_first (pb_points (bd_points b))) es.
Proof. intro H. apply map_ext_in. intros ij I. apply H, apart_lt in I as []. apply lower_first_app; auto. Qed.

Lemma edges_ok_hole b es s b' : eq_not_lt -> eq_sym -> edges_ok b es -> add_hole PD b s = Done b' ->
  edges_ok b' (es ++ cyc (length (pb_points (bd_points b))) (length (fst s))).
Proof.
  intros L Sy (W & B & P) H.
  assert (H0 := H). apply add_hole_points in H0 as (H1 & H2 & H3); auto.
  unfold add_hole in H. destruct (parse_polyline (fst s) (bd_points b)) as [a| | |] eqn:E; try discriminate.
  injection H as <-. simpl in *.
  assert (AP := fun ij => parse_polyline_apart _ _ _ ij L W E).
  apply parse_polyline_stored in E; auto.
  split; [auto|]. split.
  - intros ij I. simpl. apply in_app_or in I as [I|I]; [|auto].
    rewrite H1. apply apart_app; auto.
  - simpl. rewrite map_app, E. rewrite Permutation_app_comm. apply Permutation_app; [|reflexivity].
    rewrite P, H1. rewrite edges_ok_extend; auto.
Qed.
Lemma edges_ok_holes l : forall b es b', eq_not_lt -> eq_sym -> edges_ok b es -> add_holes PD b l = Done b' ->
  edges_ok b' (es ++ holes_edges (length (pb_points (bd_points b))) l).
Proof.
  induction l as [|s l IH]; simpl; intros b es b' L Sy O H.
  - injection H as <-. rewrite app_nil_r; auto.
  - destruct (add_hole PD b s) as [b1| | |] eqn:E; try discriminate. simpl in H.
    assert (E' := E). apply add_hole_points in E' as (E1 & E2 & E3); [|apply O].
    apply (edges_ok_hole b es) in E; auto.
    apply (IH _ _ _ L Sy E) in H. rewrite <- app_assoc in H. rewrite E1, app_length in H. auto.
Qed.
Lemma edges_ok_call c : forall b es b', eq_not_lt -> eq_sym -> edges_ok b es -> apply_call b c = Done b' ->
  edges_ok b' (es ++ call_edges (length (pb_points (bd_points b))) c).
Proof.
  destruct c; simpl; intros b es b' L Sy O H.
  - eapply edges_ok_hole; eauto.
  - eapply edges_ok_holes; eauto.
  - injection H as <-. rewrite app_nil_r. destruct O as (W & B & P).
    split; [|split]; simpl.
    + unfold bd_wf, wf_pb in *; simpl. rewrite !app_length; simpl; lia.
    + intros ij I. apply apart_app; auto.
    + change stored with (stored_from 0) in *. rewrite stored_from_app. simpl. rewrite app_nil_r.
      rewrite edges_ok_extend; auto.
  - injection H as <-. rewrite app_nil_r. destruct O as (W & B & P).
    destruct (steiners_wf (bd_points b) (fst s) W) as (H1 & H2 & H3).
    split; [|split]; auto; unfold add_steiner_points; cbn [bd_points].
    + intros ij I. rewrite H1. apply apart_app; auto.
    + rewrite H1, H2. change stored with (stored_from 0) in *. rewrite stored_from_app, stored_from_repeat, app_nil_r.
      rewrite edges_ok_extend; auto.
Qed.
Lemma edges_ok_calls l : forall b es b', eq_not_lt -> eq_sym -> edges_ok b es -> apply_calls b l = Done b' ->
  edges_ok b' (es ++ calls_edges (length (pb_points (bd_points b))) l).
Proof.
  induction l as [|c l IH]; simpl; intros b es b' L Sy O H.
  - injection H as <-. rewrite app_nil_r; auto.
  - destruct (apply_call b c) as [b1| | |] eqn:E; try discriminate. simpl in H.
    assert (E' := E). apply apply_call_points in E' as (E1 & E2 & E3); [|apply O].
    apply (edges_ok_call c b es) in E; auto.
    apply (IH _ _ _ L Sy E) in H. rewrite <- app_assoc in H. rewrite E1, app_length in H. auto.
Qed.
Theorem builder_of_edges src calls b : eq_not_lt -> eq_sym -> builder_of src calls = Done b ->
  edges_ok b (history_edges src calls).
Proof.
  intros L Sy. unfold builder_of, builder_new.
  destruct (parse_polyline (fst src) pb_new) as [b1| | |] eqn:E; try discriminate. simpl.
  assert (AP := fun ij => parse_polyline_apart _ _ _ ij L pb_new_wf E).
  assert (E' := E). apply parse_polyline_points in E' as [E1 E2]; [|apply pb_new_wf].
  apply parse_polyline_stored in E; auto; [|apply pb_new_wf].
  intro H. apply (edges_ok_calls _ _ (cyc 0 (length (fst src)))) in H; auto.
  - simpl in H. rewrite E1 in H. simpl in H. auto.
  - split; [auto|]. split; simpl.
    + intros ij I. apply AP. exact I.
    + rewrite E. change (stored (pb_edges pb_new)) with (@nil Edge). rewrite app_nil_r. reflexivity.
Qed.

(** *** when building panics *)
Definition repeats (l : list Point) : Prop :=
  exists i a b, nth_error l i = Some a /\ nth_error l ((S i) mod (length l)) = Some b /\ point_eq a b = true.

Lemma coincide_point_eq a b : coincide a b <-> point_eq a b = true.
Proof. unfold coincide, point_eq. rewrite andb_true_iff. tauto. Qed.
Lemma chain_coincide_nth l : forall last, chain_coincide last l <->
  exists i a b, nth_error (last :: l) i = Some a /\ nth_error l i = Some b /\ coincide a b.
Proof.
  induction l as [|p l IH]; intro last; simpl.
  - split; [tauto|]. intros (i & a & b & H1 & H2 & _). destruct i; discriminate.
  - rewrite IH. split.
    + intros [C|(i & a & b & H1 & H2 & C)]; [exists 0, last, p; auto|exists (S i), a, b; auto].
    + intros (i & a & b & H1 & H2 & C). destruct i as [|i]; simpl in *.
      * left; congruence.
      * right; exists i, a, b; auto.
Qed.
Lemma poly_coincide_repeats l : poly_coincide l <-> repeats l.
Proof.
  destruct l as [|p l]; simpl.
  - split; [tauto|]. intros (i & a & b & H & _). destruct i; discriminate.
  - rewrite chain_coincide_nth. unfold repeats.
    assert (G : forall i, nth_error (p :: l) i <> None -> nth_error (l ++ [p]) i = nth_error (p :: l) ((S i) mod (length (p :: l)))).
    { intros i Hi. apply nth_error_Some in Hi. cbn [length] in *. destruct (Nat.eq_dec i (length l)) as [->|N].
      - rewrite Nat.mod_same by lia. rewrite nth_error_app2, Nat.sub_diag by lia. reflexivity.
      - rewrite Nat.mod_small by lia. rewrite nth_error_app1 by lia. reflexivity. }
    split; intros (i & a & b & H1 & H2 & C); exists i, a, b.
    + assert (nth_error (p :: l) i <> None).
      { apply nth_error_Some. apply nth_error_lt in H2. rewrite app_length in H2. simpl in *. lia. }
      rewrite <- G by auto. rewrite <- coincide_point_eq. split; auto.
      change (p :: l ++ [p]) with ((p :: l) ++ [p]) in H1. rewrite nth_error_app1 in H1 by (apply nth_error_Some; auto). auto.
    + assert (nth_error (p :: l) i <> None) by congruence.
      rewrite G by auto. rewrite coincide_point_eq. split; auto.
      change (p :: l ++ [p]) with ((p :: l) ++ [p]). rewrite nth_error_app1 by (apply nth_error_Some; auto). auto.
Qed.

Lemma parse_polyline_panics l b : eq_not_lt -> wf_pb b ->
  (repeats l /\ parse_polyline l b = Panic P_repeat_points) \/
  (~ repeats l /\ exists b', parse_polyline l b = Done b').
Proof.
  intros L W. rewrite <- poly_coincide_repeats.
  destruct (parse_polyline_ok l b L W) as [[C E]|[C (b' & es & E & _)]]; [left|right]; eauto.
Qed.

(** the polylines of a history: the outer one and all holes *)
Definition call_polylines (c : call) : list (list Point) :=
  match c with CHole s => [fst s] | CHoles l => map fst l | _ => [] end.
Definition history_polylines (src : source PD) (calls : list call) : list (list Point) :=
  fst src :: flat_map call_polylines calls.

Lemma add_hole_panics b s : eq_not_lt -> bd_wf b ->
  (repeats (fst s) /\ add_hole PD b s = Panic P_repeat_points) \/
  (~ repeats (fst s) /\ exists b', add_hole PD b s = Done b').
Proof.
  intros L W. unfold add_hole.
  destruct (parse_polyline_panics (fst s) _ L W) as [[R ->]|[R [b' ->]]]; [left|right]; simpl; eauto.
Qed.
Lemma add_holes_panics l : forall b, eq_not_lt -> bd_wf b ->
  (Exists repeats (map fst l) /\ add_holes PD b l = Panic P_repeat_points) \/
  (~ Exists repeats (map fst l) /\ exists b', add_holes PD b l = Done b').
Proof.
  induction l as [|s l IH]; simpl; intros b L W.
  - right. split; [intro H; inversion H|eauto].
  - destruct (add_hole_panics b s L W) as [[R E]|[R [b' E]]]; rewrite E; simpl.
    + left; split; auto.
    + apply add_hole_points in E as (_ & _ & W'); auto.
      destruct (IH b' L W') as [[H ->]|[H [b'' ->]]]; [left|right]; split; eauto.
      intro X; inversion X; subst; auto.
Qed.
Lemma apply_call_panics c : forall b, eq_not_lt -> bd_wf b ->
  (Exists repeats (call_polylines c) /\ apply_call b c = Panic P_repeat_points) \/
  (~ Exists repeats (call_polylines c) /\ exists b', apply_call b c = Done b').
Proof.
  destruct c; simpl; intros b L W.
  - destruct (add_hole_panics b s L W) as [[R E]|[R E]]; [left|right]; split; auto.
    intro X; inversion X; subst; auto. inversion H0.
  - apply add_holes_panics; auto.
  - right; split; [intro X; inversion X|eauto].
  - right; split; [intro X; inversion X|eauto].
Qed.
Lemma apply_calls_panics l : forall b, eq_not_lt -> bd_wf b ->
  (Exists repeats (flat_map call_polylines l) /\ apply_calls b l = Panic P_repeat_points) \/
  (~ Exists repeats (flat_map call_polylines l) /\ exists b', apply_calls b l = Done b').
Proof.
  induction l as [|c l IH]; simpl; intros b L W.
  - right; split; [intro X; inversion X|eauto].
  - rewrite Exists_app. destruct (apply_call_panics c b L W) as [[R E]|[R [b' E]]]; rewrite E; simpl.
    + left; auto.
    + apply apply_call_points in E as (_ & _ & W'); auto.
      destruct (IH b' L W') as [[H ->]|[H [b'' ->]]]; [left|right]; split; eauto. tauto.
Qed.
Theorem builder_of_panics src calls : eq_not_lt ->
  (Exists repeats (history_polylines src calls) /\ builder_of src calls = Panic P_repeat_points) \/
  (~ Exists repeats (history_polylines src calls) /\ exists b, builder_of src calls = Done b).
Proof.
  intro L. unfold builder_of, builder_new, history_polylines.
  destruct (parse_polyline_panics (fst src) pb_new L pb_new_wf) as [[R E]|[R [b E]]]; rewrite E; simpl.
  - left; split; auto.
  - apply parse_polyline_points in E as [_ W]; [|apply pb_new_wf].
    destruct (apply_calls_panics calls (mkBuilder PD b (snd src)) L W) as [[H ->]|[H [b' ->]]]; [left|right]; split; eauto.
    intro X; inversion X; subst; auto.
Qed.
End S.
