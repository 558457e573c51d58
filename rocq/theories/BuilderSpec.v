(** * BuilderSpec: proofs about the builder (C01, C02, C03, C35) *)
From Coq Require Import List Arith Bool Lia Permutation Sorted.
From Verif Require Import Base Num Shape Points Cdt Lists.
Import ListNotations.

Section S.
Context {A : Arith}.

(** ** The points and the edge slots after each builder operation *)
Definition wf_pb (b : PointsBuilder) : Prop := length (pb_edges b) = length (pb_points b).

Lemma add_all_spec b l : wf_pb b ->
  let '(ids, b') := add_all b l in
  pb_points b' = pb_points b ++ l /\
  pb_edges b' = pb_edges b ++ repeat ENone (length l) /\
  ids = combine (seq (length (pb_points b)) (length l)) l.
Proof.
  revert b; induction l as [|p l IH]; intros b W; simpl.
  - rewrite !app_nil_r; auto.
  - unfold pb_add_steiner_point.
    specialize (IH (mkPB (pb_points b ++ [p]) (pb_edges b ++ [ENone]))).
    destruct (add_all _ l) as [ids b'].
    destruct IH as (E1 & E2 & E3).
    { unfold wf_pb in *; simpl; rewrite !app_length; simpl; lia. }
    simpl in *. rewrite E1, E2, E3, <- !app_assoc, app_length; simpl.
    replace (length (pb_points b) + 1) with (S (length (pb_points b))) by lia. auto.
Qed.

Lemma pb_push_edge_points b q p b' : pb_push_edge b q p = Done b' -> pb_points b' = pb_points b.
Proof.
  unfold pb_push_edge. destruct (nth_error _ _); simpl; try discriminate.
  destruct (edges_push _ _); simpl; try discriminate. intro H; injection H as <-; reflexivity.
Qed.
Lemma pb_push_edge_wf b q p b' : pb_push_edge b q p = Done b' -> wf_pb b -> wf_pb b'.
Proof.
  unfold pb_push_edge, wf_pb. destruct (nth_error _ _); simpl; try discriminate.
  destruct (edges_push _ _); simpl; try discriminate. intro H; injection H as <-; simpl.
  now rewrite list_set_length.
Qed.
Lemma push_edge_between_points b x y b' : push_edge_between b x y = Done b' -> pb_points b' = pb_points b.
Proof.
  unfold push_edge_between. destruct (edge_new _ _ _ _); simpl; try discriminate.
  apply pb_push_edge_points.
Qed.
Lemma push_edge_between_wf b x y b' : push_edge_between b x y = Done b' -> wf_pb b -> wf_pb b'.
Proof.
  unfold push_edge_between. destruct (edge_new _ _ _ _); simpl; try discriminate.
  apply pb_push_edge_wf.
Qed.
Lemma polyline_edges_points l : forall b f la b', polyline_edges b f la l = Done b' ->
  pb_points b' = pb_points b /\ (wf_pb b -> wf_pb b').
Proof.
  induction l as [|p l IH]; simpl; intros b f la b' H.
  - split; [eapply push_edge_between_points|eapply push_edge_between_wf]; eauto.
  - destruct (push_edge_between b la p) eqn:E; simpl in H; try discriminate.
    apply IH in H as [H1 H2]. rewrite H1.
    split; [eapply push_edge_between_points; eauto|].
    intro W; eapply H2, push_edge_between_wf; eauto.
Qed.

Lemma parse_polyline_points l b b' : wf_pb b -> parse_polyline l b = Done b' ->
  pb_points b' = pb_points b ++ l /\ wf_pb b'.
Proof.
  intros W. unfold parse_polyline.
  pose proof (add_all_spec b l W) as S. destruct (add_all b l) as [ids b1].
  destruct S as (E1 & E2 & E3).
  assert (W1 : wf_pb b1).
  { unfold wf_pb in *; rewrite E1, E2, !app_length, repeat_length; lia. }
  destruct ids as [|f r].
  - intro H; injection H as <-; auto.
  - intro H; apply polyline_edges_points in H as [H1 H2]. rewrite H1; auto.
Qed.
End S.

Section Edges.
Context {A : Arith}.

(** ** Which edges are stored, as a multiset of (lower, upper) pairs *)
Definition stored_at (q : nat) (e : PointEdges) : list Edge := map (fun p => mkEdge p q) (edges_list e).
Definition stored (es : list PointEdges) : list Edge :=
  flat_map (fun qe => stored_at (fst qe) (snd qe)) (enumerate es).

Definition stored_from (k : nat) (es : list PointEdges) : list Edge :=
  flat_map (fun qe => stored_at (fst qe) (snd qe)) (combine (seq k (length es)) es).

Lemma stored_from_cons k e es : stored_from k (e :: es) = stored_at k e ++ stored_from (S k) es.
Proof. reflexivity. Qed.
Lemma stored_from_app k es es' :
  stored_from k (es ++ es') = stored_from k es ++ stored_from (k + length es) es'.
Proof.
  revert k; induction es as [|e es IH]; intro k; simpl app.
  - simpl. now rewrite Nat.add_0_r.
  - rewrite !stored_from_cons, IH, app_assoc. simpl length. do 2 f_equal. lia.
Qed.
Lemma stored_from_repeat k n : stored_from k (repeat ENone n) = [].
Proof. revert k; induction n as [|n IH]; intro k; [reflexivity|]. simpl repeat. rewrite stored_from_cons, IH. reflexivity. Qed.

Definition deg (e : PointEdges) : nat := length (edges_list e).
Definition deg_at (es : list PointEdges) (i : nat) : nat :=
  match nth_error es i with Some e => deg e | None => 0 end.

Lemma edges_push_ok e p : deg e <= 1 -> exists e', edges_push e p = Done e' /\
  edges_list e' = edges_list e ++ [p].
Proof. destruct e; cbn; intro H; try lia; eexists; split; reflexivity. Qed.

Lemma stored_from_set es : forall k i e e' p, nth_error es i = Some e ->
  edges_list e' = edges_list e ++ [p] ->
  Permutation (stored_from k (list_set es i e')) (mkEdge p (k + i) :: stored_from k es).
Proof.
  induction es as [|x es IH]; intros k [|i] e e' p H E; simpl in H; try discriminate.
  - injection H as ->. simpl list_set. rewrite !stored_from_cons.
    unfold stored_at at 1. rewrite E, map_app. simpl. rewrite <- app_assoc.
    simpl. rewrite Nat.add_0_r. symmetry. apply Permutation_middle.
  - simpl list_set. rewrite !stored_from_cons.
    rewrite (IH (S k) i e e' p H E). replace (k + S i) with (S k + i) by lia.
    symmetry. apply Permutation_middle.
Qed.

Lemma push_ok b q p : q < length (pb_edges b) -> deg_at (pb_edges b) q <= 1 ->
  exists b', pb_push_edge b q p = Done b' /\ pb_points b' = pb_points b /\
    length (pb_edges b') = length (pb_edges b) /\
    Permutation (stored (pb_edges b')) (mkEdge p q :: stored (pb_edges b)) /\
    deg_at (pb_edges b') q = S (deg_at (pb_edges b) q) /\
    (forall j, j <> q -> deg_at (pb_edges b') j = deg_at (pb_edges b) j).
Proof.
  intros Hq Hd. unfold pb_push_edge.
  destruct (nth_error_ex _ _ Hq) as [e He]. rewrite He; simpl.
  unfold deg_at in *. rewrite He in Hd.
  destruct (edges_push_ok e p Hd) as (e' & E1 & E2). rewrite E1; simpl.
  eexists; split; [reflexivity|]; simpl. split; [auto|]. split; [apply list_set_length|].
  split; [|split].
  - apply (stored_from_set (pb_edges b) 0 q e e' p He E2).
  - rewrite nth_error_list_set_eq, He by auto. unfold deg. rewrite E2, app_length; simpl; lia.
  - intros j Hj. rewrite nth_error_list_set_ne by auto. reflexivity.
Qed.

(** Two points coincide for [Edge::new]. *)
Definition coincide (a b : Point) : Prop :=
  f_eq (py a) (py b) = true /\ f_eq (px a) (px b) = true.
Definition eq_not_lt : Prop := forall x y, f_eq x y = true -> f_lt y x = false.

Lemma edge_new_cases i a j b : eq_not_lt ->
  (coincide a b /\ edge_new i a j b = Panic P_repeat_points) \/
  (~ coincide a b /\ exists e, edge_new i a j b = Done e /\ (e = mkEdge i j \/ e = mkEdge j i)).
Proof.
  intro L. unfold edge_new, coincide.
  destruct (f_lt (py b) (py a)) eqn:E1.
  { right; split; [intros [H _]; apply L in H; congruence|eauto]. }
  destruct (f_eq (py a) (py b)) eqn:E2; [|right; split; [intros [H _]; discriminate|eauto]].
  destruct (f_lt (px b) (px a)) eqn:E3.
  { right; split; [intros [_ H]; apply L in H; congruence|eauto]. }
  destruct (f_eq (px a) (px b)) eqn:E4; [left; auto|].
  right; split; [intros [_ H]; discriminate|eauto].
Qed.

(** the edges of a chain from [last] through [l] to [first], as [Edge::new] orients them *)
Definition edge_of (xy : (nat * Point) * (nat * Point)) : res Edge :=
  edge_new (fst (fst xy)) (snd (fst xy)) (fst (snd xy)) (snd (snd xy)).

Lemma push_between_ok b x y : eq_not_lt ->
  fst x < length (pb_edges b) -> fst y < length (pb_edges b) ->
  deg_at (pb_edges b) (fst x) <= 1 -> deg_at (pb_edges b) (fst y) <= 1 ->
  (coincide (snd x) (snd y) /\ push_edge_between b x y = Panic P_repeat_points) \/
  (~ coincide (snd x) (snd y) /\ exists e b', edge_of (x, y) = Done e /\
     push_edge_between b x y = Done b' /\ pb_points b' = pb_points b /\
     length (pb_edges b') = length (pb_edges b) /\
     Permutation (stored (pb_edges b')) (e :: stored (pb_edges b)) /\
     (forall j, j <> fst x -> j <> fst y -> deg_at (pb_edges b') j = deg_at (pb_edges b) j) /\
     (forall j, deg_at (pb_edges b') j <= S (deg_at (pb_edges b) j))).
Proof.
  intros L Hx Hy Dx Dy. unfold push_edge_between.
  destruct (edge_new_cases (fst x) (snd x) (fst y) (snd y) L) as [[C E]|[C (e & E & Ee)]].
  { left; rewrite E; auto. }
  right; split; auto. exists e. unfold edge_of; simpl. rewrite E; simpl.
  assert (He : e_q e < length (pb_edges b) /\ deg_at (pb_edges b) (e_q e) <= 1 /\ (e_q e = fst x \/ e_q e = fst y)).
  { destruct Ee; subst e; simpl; auto. }
  destruct He as (Hq & Dq & Qe).
  destruct (push_ok b (e_q e) (e_p e) Hq Dq) as (b' & P1 & P2 & P3 & P4 & P5 & P6).
  exists b'. split; auto. split; auto. split; auto. split; auto. split.
  - rewrite P4. destruct e; reflexivity.
  - split.
    + intros j J1 J2. apply P6. destruct Qe; congruence.
    + intro j. destruct (Nat.eq_dec j (e_q e)) as [->|N]; [lia|rewrite P6 by auto; lia].
Qed.

(** [l] has two neighbouring points that coincide *)
Fixpoint chain_coincide (last : Point) (l : list Point) : Prop :=
  match l with [] => False | p :: l' => coincide last p \/ chain_coincide p l' end.

Definition chain (last : nat * Point) (l : list (nat * Point)) (first : nat * Point) :=
  combine (last :: l) (l ++ [first]).

Lemma polyline_edges_ok l : forall b first last, eq_not_lt ->
  fst first < length (pb_edges b) -> fst last < length (pb_edges b) ->
  Forall (fun x => fst x < length (pb_edges b) /\ deg_at (pb_edges b) (fst x) = 0 /\ fst x <> fst first /\ fst x <> fst last) l ->
  NoDup (map fst l) ->
  deg_at (pb_edges b) (fst first) <= 1 -> deg_at (pb_edges b) (fst last) <= 1 ->
  (fst last = fst first -> deg_at (pb_edges b) (fst first) = 0 /\ last = first) ->
  (chain_coincide (snd last) (map snd l ++ [snd first]) /\
     polyline_edges b first last l = Panic P_repeat_points) \/
  (~ chain_coincide (snd last) (map snd l ++ [snd first]) /\ exists b' es,
     polyline_edges b first last l = Done b' /\
     Forall2 (fun xy e => edge_of xy = Done e) (chain last l first) es /\
     Permutation (stored (pb_edges b')) (es ++ stored (pb_edges b))).
Proof.
  induction l as [|p l IH]; intros b first last L Hf Hl HF ND Df Dl Heq.
  - simpl. destruct (push_between_ok b last first L Hl Hf Dl Df) as [[C E]|[C (e & b' & E1 & E2 & E3 & E4 & E5 & _)]].
    + left; split; auto.
    + right; split; [tauto|]. exists b', [e]. split; auto. split; auto. constructor; auto.
  - inversion HF as [|? ? (Hp & Dp & Np1 & Np2) HF']; subst.
    inversion ND as [|? ? NI ND']; subst.
    destruct (push_between_ok b last p L Hl Hp Dl ltac:(lia)) as [[C E]|[C (e & b' & E1 & E2 & E3 & E4 & E5 & E6 & E7)]].
    + left; simpl. rewrite E; auto.
    + destruct (IH b' first p L) as [[C' E']|[C' (b'' & es & F1 & F2 & F3)]]; auto; try lia.
      * rewrite Forall_forall in *. intros x Hx. destruct (HF' x Hx) as (G1 & G2 & G3 & G4).
        assert (fst x <> fst p) by (intro Q; apply NI; rewrite <- Q; apply in_map; auto).
        rewrite E4, E6 by auto. auto.
      * destruct (Nat.eq_dec (fst last) (fst first)) as [Q|Q].
        -- destruct (Heq Q) as [Z _]. specialize (E7 (fst first)). lia.
        -- rewrite E6; auto.
      * specialize (E7 (fst p)). lia.
      * left. simpl. rewrite E2; simpl. auto.
      * right. simpl. rewrite E2; simpl. split; [tauto|].
        exists b'', (e :: es). split; auto. split; [constructor; auto|].
        rewrite F3, E5. simpl. symmetry; apply Permutation_middle.
Qed.

Definition poly_coincide (l : list Point) : Prop :=
  match l with [] => False | p :: l' => chain_coincide p (l' ++ [p]) end.

Definition cyc_pairs (ids : list (nat * Point)) : list ((nat * Point) * (nat * Point)) :=
  match ids with [] => [] | f :: r => chain f r f end.

Lemma parse_polyline_ok l b : eq_not_lt -> wf_pb b ->
  (poly_coincide l /\ parse_polyline l b = Panic P_repeat_points) \/
  (~ poly_coincide l /\ exists b' es, parse_polyline l b = Done b' /\
     Forall2 (fun xy e => edge_of xy = Done e)
             (cyc_pairs (combine (seq (length (pb_points b)) (length l)) l)) es /\
     Permutation (stored (pb_edges b')) (es ++ stored (pb_edges b))).
Proof.
  intros L W. unfold parse_polyline.
  pose proof (add_all_spec b l W) as S. destruct (add_all b l) as [ids b1].
  destruct S as (E1 & E2 & E3).
  assert (St : stored (pb_edges b1) = stored (pb_edges b)).
  { rewrite E2. change stored with (stored_from 0). rewrite stored_from_app, stored_from_repeat, app_nil_r. reflexivity. }
  assert (Dg : forall j, length (pb_edges b) <= j -> deg_at (pb_edges b1) j = 0).
  { intros j Hj. unfold deg_at. rewrite E2, nth_error_app2 by auto.
    destruct (nth_error (repeat ENone (length l)) (j - length (pb_edges b))) eqn:E; auto.
    apply nth_error_In, repeat_spec in E. subst; reflexivity. }
  destruct l as [|p0 l].
  - simpl in E3. subst ids. right; split; [simpl; tauto|]. exists b1, []. split; auto. split; [constructor|]. rewrite St; auto.
  - simpl in E3. subst ids. set (n := length (pb_points b)) in *.
    unfold wf_pb in W. fold n in W.
    assert (Len : length (pb_edges b1) = n + S (length l)).
    { rewrite E2, app_length, repeat_length; simpl; lia. }
    pose proof (polyline_edges_ok (combine (seq (S n) (length l)) l) b1 (n, p0) (n, p0) L) as H.
    assert (Ms : map snd (combine (seq (S n) (length l)) l) = l).
    { clear. generalize (S n) as k. induction l; intro k; simpl; f_equal; auto. }
    assert (Mf : map fst (combine (seq (S n) (length l)) l) = seq (S n) (length l)).
    { clear. generalize (S n) as k. induction l; intro k; simpl; f_equal; auto. }
    rewrite Ms, Mf in H. simpl fst in H; simpl snd in H.
    destruct H as [[C E]|[C (b' & es & F1 & F2 & F3)]]; try lia.
    + rewrite Forall_forall. intros x Hx. apply (in_map fst) in Hx. rewrite Mf in Hx.
      apply in_seq in Hx. rewrite Dg by lia. lia.
    + apply seq_NoDup.
    + rewrite Dg by lia; lia.
    + rewrite Dg by lia; lia.
    + intros _. rewrite Dg by lia; auto.
    + left. split; auto.
    + right. split; auto. exists b', es. split; auto. split; auto. rewrite <- St. auto.
Qed.
End Edges.
