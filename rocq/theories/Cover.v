(** * Cover: every point between the base and the front lies in exactly one triangle *)
From Coq Require Import List Arith Bool Lia ZArith Psatz Permutation.
From Verif Require Import Base Num Shape ShapeSpec Points Triangles Front Sweeper Lists Exact Geom Mesh Rotate Setup Boundary Winding.
Import ListNotations.
Local Open Scope Z_scope.
Local Open Scope nat_scope.

(** ** positions of a set of triangles *)
Definition tri_pos (a : nat) : list pos := [(a, I0); (a, I1); (a, I2)].
Definition positions (R : list nat) : list pos := flat_map tri_pos R.
Lemma in_positions R P : In P (positions R) <-> In (fst P) R.
Proof.
  unfold positions. rewrite in_flat_map. split.
  - intros (a & Ia & H). simpl in H. destruct H as [<-|[<-|[<-|[]]]]; auto.
  - intro H. exists (fst P). split; auto. destruct P as [a []]; simpl; auto.
Qed.
Lemma nodup_positions R : NoDup R -> NoDup (positions R).
Proof.
  induction R as [|a R IH]; intro ND; [constructor|]. inversion ND as [|? ? Na ND']; subst. change (positions (a :: R)) with (tri_pos a ++ positions R).
  assert (K : forall i, ~ In (a, i) (positions R)) by (intros i H; apply in_positions in H; auto).
  unfold tri_pos. simpl. constructor; [|constructor; [|constructor; auto]]; simpl; intros H; repeat (destruct H as [H|H]; [discriminate H|]); eapply K; eauto.
Qed.
(** summing over the positions of triangles = summing over triangles their three edges *)
Lemma positions_sum ts (w : nat * nat -> Z) R :
  zsuml (fun P => w (pedge ts P)) (positions R) = zsuml (fun a => (w (tv ts a I0, tv ts a I1) + w (tv ts a I1, tv ts a I2) + w (tv ts a I2, tv ts a I0))%Z) R.
Proof. unfold positions. rewrite zsuml_flat_map. apply zsuml_ext. intros a _. unfold tri_pos, pedge. simpl. lia. Qed.

(** the position across an edge *)
Definition twin (ts : TriangleStore) (P : pos) : option pos :=
  match ptn ts P with
  | None => None
  | Some b => option_map (fun j => (b, j))
      (find (fun j => (tv ts (fst P) (nxt (snd P)) =? tv ts b (prv j)) && (tv ts (fst P) (prv (snd P)) =? tv ts b (nxt j))) [I0; I1; I2])
  end.
Lemma twin_spec N zc ts P Q : mesh N zc ts -> fst P < length ts -> (twin ts P = Some Q <-> ppaired ts P Q).
Proof.
  intros M L. destruct P as [a i], Q as [b j]. unfold ppaired. cbn [fst snd] in *. unfold twin, ptn. cbn [fst snd].
  assert (K : forall b j, tn ts a i = Some b -> find (fun j => (tv ts a (nxt i) =? tv ts b (prv j)) && (tv ts a (prv i) =? tv ts b (nxt j))) [I0; I1; I2] = Some j -> paired ts a i b j).
  { intros b' j' H F. apply find_some in F as [_ F]. apply andb_true_iff in F as [F1 F2]. apply Nat.eqb_eq in F1, F2.
    destruct (m_adj M a i b' L H) as [j0 PR]. assert (j' = j0) as ->; [|auto].
    apply (@opposed_idx zc ts a i b' j0 j'); [apply M; auto|apply M; apply PR|apply PR|split; auto]. }
  split.
  - destruct (tn ts a i) as [b'|] eqn:H; [|discriminate]. destruct (find _ _) as [j'|] eqn:F; [|discriminate]. simpl. intro Q. injection Q as -> ->. eauto.
  - intro PR. pose proof PR as (_ & _ & H & _ & O1 & O2). rewrite H. destruct (find _ _) as [j'|] eqn:F.
    + specialize (K b j' H F). simpl. f_equal. f_equal. apply (@opposed_idx zc ts a i b j j'); [apply M; auto|apply M; apply PR|apply PR|apply K].
    + exfalso. assert (X := find_none _ _ F j). cbn beta in X. rewrite O1, O2, !Nat.eqb_refl in X. simpl in X. discriminate X. destruct j; auto.
Qed.
Lemma twin_none N zc ts P : mesh N zc ts -> fst P < length ts -> (twin ts P = None <-> ptn ts P = None).
Proof.
  intros M L. split.
  - intro T. destruct (ptn ts P) as [b|] eqn:H; auto. destruct (m_adj M (fst P) (snd P) b L H) as [j PR].
    rewrite (proj2 (twin_spec N zc ts P (b, j) M L) PR) in T. discriminate.
  - intro H. unfold twin. rewrite H. reflexivity.
Qed.
Lemma twin_edge ts P Q : ppaired ts P Q -> pedge ts Q = (snd (pedge ts P), fst (pedge ts P)).
Proof. intros (_ & _ & _ & _ & O1 & O2). unfold pedge. cbn [fst snd]. congruence. Qed.

(** ** sums over all triangles: only the edges without neighbour count *)
Section Sum.
Variables (N : nat) (zc : nat -> zpt) (ts : TriangleStore).
Hypothesis M : mesh N zc ts.
Variable w : nat * nat -> Z.
Hypothesis W : forall u v, w (v, u) = (- w (u, v))%Z.
Definition is_bpos (P : pos) : bool := match twin ts P with None => true | Some _ => false end.
Lemma mesh_sum : zsuml (fun P => w (pedge ts P)) (positions (seq 0 (length ts))) =
  zsuml (fun P => w (pedge ts P)) (filter is_bpos (positions (seq 0 (length ts)))).
Proof.
  apply (zsuml_cancel pos_dec _ (twin ts)); [apply nodup_positions, seq_NoDup|].
  intros P Q IP T. apply in_positions, in_seq in IP. destruct IP as [_ LP]. simpl in LP.
  apply (twin_spec N zc ts P Q M LP) in T. pose proof T as (_ & LQ & _). split; [apply in_positions, in_seq; simpl; lia|].
  split; [apply (twin_spec N zc ts Q P M LQ), paired_sym, T|]. rewrite (twin_edge ts P Q T). destruct (pedge ts P). apply W.
Qed.
End Sum.

(** consecutive elements *)
Fixpoint pairs {X} (l : list X) : list (X * X) := match l with x :: (y :: _) as r => (x, y) :: pairs r | _ => [] end.
Lemma in_pairs {X} (l : list X) x y : In (x, y) (pairs l) <-> exists k, nth_error l k = Some x /\ nth_error l (S k) = Some y.
Proof.
  induction l as [|a [|b l] IH]; [split; [contradiction|intros ([|k] & H & _); discriminate]|split; [contradiction|intros ([|[|k]] & H1 & H2); discriminate]|].
  change (pairs (a :: b :: l)) with ((a, b) :: pairs (b :: l)). simpl In. rewrite IH. split.
  - intros [H|(k & H1 & H2)]; [injection H as -> ->; exists 0; auto|exists (S k); auto].
  - intros ([|k] & H1 & H2); [left; simpl in *; congruence|right; exists k; auto].
Qed.
Lemma nodup_pairs {X} (l : list X) : NoDup l -> NoDup (pairs l).
Proof.
  induction l as [|a [|b l] IH]; intro ND; [constructor|constructor|]. inversion ND as [|? ? Na ND']; subst.
  change (pairs (a :: b :: l)) with ((a, b) :: pairs (b :: l)). constructor; auto.
  intro H. apply in_pairs in H as (k & H & _). apply Na. eapply nth_error_In; eauto.
Qed.

(** the boundary is the base and the front *)
Section Bnd.
Context {A : Arith}.
Variables (N : nat) (zc : nat -> zpt) (ts : TriangleStore) (head tail : nat) (ns : list Entry) (R0 : list tid).
Hypothesis M : mesh N zc ts.
Hypothesis B : boundary head tail ts ns R0 [].
Let vs := map en_pid ns.
Hypothesis ND : NoDup vs.
Hypothesis First : nth_error vs 0 = Some head.
Definition swp {X} (p : X * X) : X * X := (snd p, fst p).
Lemma adj_pairs v v' : In (v, v') (pairs vs) <-> exists e e', adjacent ns e e' /\ en_pid e = v /\ en_pid e' = v'.
Proof using.
  rewrite in_pairs. unfold vs. split.
  - intros (k & H1 & H2). rewrite nth_error_map in H1, H2. destruct (nth_error ns k) as [e|] eqn:E1; [|discriminate]. destruct (nth_error ns (S k)) as [e'|] eqn:E2; [|discriminate].
    simpl in *. exists e, e'. split; [exists k; auto|split; congruence].
  - intros (e & e' & (k & H1 & H2) & <- & <-). exists k. rewrite !nth_error_map, H1, H2. auto.
Qed.
Lemma boundary_edges : Permutation (map (pedge ts) (filter (is_bpos ts) (positions (seq 0 (length ts))))) ((head, tail) :: map swp (pairs vs)).
Proof using M B ND First.
  assert (IB : forall P, In P (filter (is_bpos ts) (positions (seq 0 (length ts)))) <-> bpos ts P).
  { intro P. rewrite filter_In, in_positions, in_seq. unfold is_bpos, bpos. split.
    - intros [[_ L] H]. simpl in L. split; auto. apply (twin_none N zc ts P M L). destruct (twin ts P); auto; discriminate.
    - intros [L H]. split; [split; simpl; unfold TriangleStore in *; lia|]. rewrite (proj2 (twin_none N zc ts P M L) H). auto. }
  apply NoDup_Permutation.
  - apply NoDup_map_in; [|apply NoDup_filter, nodup_positions, seq_NoDup]. intros P Q HP HQ. apply IB in HP, HQ. apply (bd_one _ _ _ _ _ _ B); auto.
  - constructor.
    + rewrite in_map_iff. intros ([v v'] & Q & H). unfold swp in Q. cbn [fst snd] in Q. injection Q as -> ->. apply in_pairs in H as (k & _ & H).
      assert (0 = S k); [|discriminate]. apply (proj1 (NoDup_nth_error vs) ND); [apply nth_error_lt in First; auto|congruence].
    + apply NoDup_map_in; [|apply nodup_pairs; auto]. intros [u v] [u' v'] _ _ Q. unfold swp in Q. cbn [fst snd] in Q. congruence.
  - intros [u v]. rewrite in_map_iff. split.
    + intros (P & Q & HP). apply IB in HP. rewrite <- Q. destruct (bd_only _ _ _ _ _ _ B P HP) as [->|(e & e' & AD & ->)]; [left; auto|right].
      apply in_map_iff. exists (en_pid e, en_pid e'). split; auto. apply adj_pairs. eauto.
    + intros [Q|Q].
      * destruct (bd_base _ _ _ _ _ _ B) as (P & HP & QP). exists P. rewrite IB. split; auto. congruence.
      * apply in_map_iff in Q as ([x y] & Q & H). unfold swp in Q. cbn [fst snd] in Q. injection Q as <- <-. apply adj_pairs in H as (e & e' & AD & <- & <-).
        destruct (bd_front _ _ _ _ _ _ B e e' AD) as (P & HP & QP & _). exists P. rewrite IB. auto.
Qed.
Lemma boundary_sum (w : nat * nat -> Z) : (forall u v, w (v, u) = (- w (u, v))%Z) ->
  zsuml (fun a => (w (tv ts a I0, tv ts a I1) + w (tv ts a I1, tv ts a I2) + w (tv ts a I2, tv ts a I0))%Z) (seq 0 (length ts)) =
  (w (head, tail) - zsuml w (pairs vs))%Z.
Proof using M B ND First.
  intro W. rewrite <- (positions_sum ts w), (mesh_sum N zc ts M w W), <- (zsuml_map w (pedge ts)), (zsuml_perm w _ _ boundary_edges).
  simpl. rewrite (zsuml_map w swp), (zsuml_ext _ (fun p => (- w p)%Z)), (zsuml_opp w); [lia|]. intros [u v] _. apply W.
Qed.
End Bnd.

(** ** an x-monotone chain is crossed once *)
Section Cross.
Variable zc : nat -> zpt.
Variable p : zpt.
Open Scope Z_scope.
Definition spans (v v' : nat) : Prop := fst (zc v) <= fst p < fst (zc v').
Definition crosses (e : nat * nat) : Z := cr (zc (fst e)) (zc (snd e)) p.
Definition monotone (vs : list nat) : Prop := forall i j v v', (i <= j)%nat -> nth_error vs i = Some v -> nth_error vs j = Some v' -> fst (zc v) <= fst (zc v').
Lemma monotone_tl v vs : monotone (v :: vs) -> monotone vs.
Proof. intros H i j a b L H1 H2. apply (H (S i) (S j)); auto. lia. Qed.
Lemma cross_left : forall vs, monotone vs -> (forall v, In v vs -> fst p < fst (zc v)) -> zsuml crosses (pairs vs) = 0.
Proof.
  intros vs _ H. rewrite (zsuml_ext _ (fun _ => 0)); [clear; induction (pairs vs); simpl; auto|].
  intros [u v] IN. apply in_pairs in IN as (k & H1 & H2). apply nth_error_In in H1, H2. apply H in H1, H2.
  unfold crosses, cr. cbn [fst snd]. destruct (Z.leb_spec (fst (zc u)) (fst p)), (Z.leb_spec (fst (zc v)) (fst p)); simpl; lia.
Qed.
Lemma cross_right : forall vs, (forall v, In v vs -> fst (zc v) <= fst p) -> zsuml crosses (pairs vs) = 0.
Proof.
  intros vs H. rewrite (zsuml_ext _ (fun _ => 0)); [clear; induction (pairs vs); simpl; auto|].
  intros [u v] IN. apply in_pairs in IN as (k & H1 & H2). apply nth_error_In in H1, H2. apply H in H1, H2.
  unfold crosses, cr. cbn [fst snd]. destruct (Z.ltb_spec (fst p) (fst (zc v))), (Z.ltb_spec (fst p) (fst (zc u))); rewrite ?andb_false_r; simpl; lia.
Qed.
Lemma cross_at : forall vs v v', monotone vs -> In (v, v') (pairs vs) -> spans v v' -> zsuml crosses (pairs vs) = crosses (v, v').
Proof.
  induction vs as [|a [|b vs] IH]; intros v v' Mo H Sp; [contradiction|contradiction|].
  change (pairs (a :: b :: vs)) with ((a, b) :: pairs (b :: vs)) in *. cbn [zsuml fold_right]. fold (zsuml crosses (pairs (b :: vs))).
  destruct H as [H|H].
  - injection H as -> ->. rewrite cross_left; [lia|eapply monotone_tl; eauto|]. intros u Iu. apply In_nth_error in Iu as [k Hk].
    assert (fst (zc v') <= fst (zc u)) by (apply (Mo 1%nat (S k)); auto; lia). unfold spans in Sp. lia.
  - rewrite (IH v v' (monotone_tl _ _ Mo) H Sp). assert (crosses (a, b) = 0); [|lia].
    apply in_pairs in H as (k & H1 & H2). unfold spans in Sp.
    assert (fst (zc a) <= fst (zc b)) by (apply (Mo 0%nat 1%nat); auto).
    assert (fst (zc b) <= fst (zc v)) by (apply (Mo 1%nat (S k)); auto; lia).
    unfold crosses, cr. cbn [fst snd]. destruct (Z.ltb_spec (fst p) (fst (zc a))), (Z.ltb_spec (fst p) (fst (zc b))); rewrite ?andb_false_r; simpl; lia.
Qed.
Lemma cross_ex : forall vs a z, nth_error vs 0 = Some a -> nth_error vs (length vs - 1) = Some z -> spans a z -> exists v v', In (v, v') (pairs vs) /\ spans v v'.
Proof.
  unfold spans. induction vs as [|a [|b vs] IH]; intros a' z H1 H2 Sp; [discriminate| |].
  - simpl in *. injection H1 as ->. injection H2 as ->. lia.
  - simpl in H1. injection H1 as ->. destruct (Z_lt_le_dec (fst p) (fst (zc b))) as [L|L].
    + exists a', b. simpl. split; auto. lia.
    + destruct (IH b z) as (v & v' & H & Q); auto; [|lia|exists v, v'; split; auto; right; auto]. rewrite <- H2. simpl. rewrite Nat.sub_0_r. reflexivity.
Qed.
End Cross.

(** ** the covering theorem *)
Section Cover.
Context {A : Arith}.
Variables (N : nat) (zc : nat -> zpt) (ts : TriangleStore) (head tail : nat) (ns : list Entry) (R0 : list tid).
Hypothesis M : mesh N zc ts.
Hypothesis B : boundary head tail ts ns R0 [].
Let vs := map en_pid ns.
Hypothesis ND : NoDup vs.
Hypothesis First : nth_error vs 0 = Some head.
Hypothesis Last : nth_error vs (length vs - 1) = Some tail.
Hypothesis Mo : monotone zc vs.
Open Scope Z_scope.
(** triangle t as a set of points *)
Definition inside (t : nat) (p : zpt) : Prop := strictly_inside (zc (tv ts t I0)) (zc (tv ts t I1)) (zc (tv ts t I2)) p.
Definition inon (t : nat) (p : zpt) : Prop := inside_or_on (zc (tv ts t I0)) (zc (tv ts t I1)) (zc (tv ts t I2)) p.
(** above (or on) the base and below the front *)
Definition between (p : zpt) : Prop :=
  fst (zc head) <= fst p < fst (zc tail) /\ 0 <= orient (zc head) (zc tail) p /\
  exists v v', In (v, v') (pairs vs) /\ spans zc p v v' /\ orient (zc v) (zc v') p < 0.
Definition wnt (p : zpt) (t : nat) : Z := wn3 (zc (tv ts t I0)) (zc (tv ts t I1)) (zc (tv ts t I2)) p.
Definition depth (p : zpt) : Z := zsuml (wnt p) (seq 0 (length ts)).
Lemma wnt_01 p t : In t (seq 0 (length ts)) -> wnt p t = 0 \/ wnt p t = 1.
Proof. intro H. apply in_seq in H. apply (wn3_ccw _ _ _ p (m_ccw M t ltac:(unfold TriangleStore in *; lia))). Qed.
Lemma depth_front p : depth p = cr (zc head) (zc tail) p - zsuml (crosses zc p) (pairs vs).
Proof. apply (boundary_sum N zc ts head tail ns R0 M B ND First (crosses zc p)). intros. apply cr_anti. Qed.
Lemma depth_between p : (between p -> depth p = 1) /\ (~ between p -> depth p = 0).
Proof.
  pose proof (zsuml_01 (wnt p) (seq 0 (length ts)) (wnt_01 p)) as (NN & _). fold (depth p) in NN. rewrite depth_front in *.
  destruct (Z_le_dec (fst (zc head)) (fst p)) as [L1|L1].
  destruct (Z_lt_dec (fst p) (fst (zc tail))) as [L2|L2].
  - destruct (cross_ex zc p vs head tail First Last (conj L1 L2)) as (v & v' & IN & Sp). rewrite (cross_at zc p vs v v' Mo IN Sp) in *.
    unfold crosses in *. cbn [fst snd] in *. unfold spans in Sp. unfold cr in *.
    rewrite (proj2 (Z.leb_le (fst (zc head)) (fst p)) L1), (proj2 (Z.ltb_lt (fst p) (fst (zc tail))) L2) in *.
    rewrite (proj2 (Z.leb_le (fst (zc v)) (fst p))), (proj2 (Z.ltb_lt (fst p) (fst (zc v')))) in * by lia. cbn [andb] in *.
    split.
    + intros (_ & O1 & (u & u' & IN' & Sp' & O2)).
      assert (Q : crosses zc p (u, u') = crosses zc p (v, v')) by (rewrite <- (cross_at zc p vs u u' Mo IN' Sp'), <- (cross_at zc p vs v v' Mo IN Sp); auto).
      unfold crosses, cr in Q. cbn [fst snd] in Q. unfold spans in Sp'.
      rewrite (proj2 (Z.leb_le (fst (zc v)) (fst p))), (proj2 (Z.ltb_lt (fst p) (fst (zc v')))), (proj2 (Z.leb_le (fst (zc u)) (fst p))), (proj2 (Z.ltb_lt (fst p) (fst (zc u')))) in Q by lia.
      cbn [andb] in Q. destruct (Z.leb_spec 0 (orient (zc head) (zc tail) p)), (Z.leb_spec 0 (orient (zc v) (zc v') p)), (Z.leb_spec 0 (orient (zc u) (zc u') p)); lia.
    + intro NB. destruct (Z.leb_spec 0 (orient (zc head) (zc tail) p)), (Z.leb_spec 0 (orient (zc v) (zc v') p)); try lia.
      exfalso. apply NB. split; auto. split; auto. exists v, v'. auto.
  - split; [intros [H _]; lia|]. intros _. rewrite cross_right.
    + unfold cr. destruct (Z.ltb_spec (fst p) (fst (zc tail))), (Z.ltb_spec (fst p) (fst (zc head))); rewrite ?andb_false_r; try lia.
    + intros v Iv. apply In_nth_error in Iv as [k Hk]. pose proof (nth_error_lt _ _ _ Hk).
      assert (fst (zc v) <= fst (zc tail)) by (apply (Mo k (length vs - 1)%nat); auto; lia). lia.
  - split; [intros [H _]; lia|]. intros _. rewrite cross_left; auto.
    + assert (fst (zc head) <= fst (zc tail)) by (apply (Mo 0%nat (length vs - 1)%nat); auto; lia).
      unfold cr. destruct (Z.leb_spec (fst (zc head)) (fst p)), (Z.leb_spec (fst (zc tail)) (fst p)); simpl; lia.
    + intros v Iv. apply In_nth_error in Iv as [k Hk].
      assert (fst (zc head) <= fst (zc v)) by (apply (Mo 0%nat k); auto; lia). lia.
Qed.
Lemma between_dec p : between p \/ ~ between p.
Proof.
  destruct (Z.eq_dec (depth p) 1) as [Q|Q]; [left|right; intro H; apply Q, depth_between, H].
  (* decidability of the parts *)
  destruct (Z_le_dec (fst (zc head)) (fst p)) as [L1|L1].
  destruct (Z_lt_dec (fst p) (fst (zc tail))) as [L2|L2].
  - destruct (cross_ex zc p vs head tail First Last (conj L1 L2)) as (v & v' & IN & Sp).
    rewrite depth_front, (cross_at zc p vs v v' Mo IN Sp) in Q. unfold crosses, cr in Q. cbn [fst snd] in Q. unfold spans in Sp.
    rewrite (proj2 (Z.leb_le (fst (zc head)) (fst p)) L1), (proj2 (Z.ltb_lt (fst p) (fst (zc tail))) L2) in Q.
    rewrite (proj2 (Z.leb_le (fst (zc v)) (fst p))), (proj2 (Z.ltb_lt (fst p) (fst (zc v')))) in Q by lia. cbn [andb] in Q.
    destruct (Z.leb_spec 0 (orient (zc head) (zc tail) p)), (Z.leb_spec 0 (orient (zc v) (zc v') p)); try lia.
    split; auto. split; auto. exists v, v'. auto.
  - exfalso. rewrite (proj2 (depth_between p)) in Q; [lia|intros [H _]; lia].
  - exfalso. rewrite (proj2 (depth_between p)) in Q; [lia|intros [H _]; lia].
Qed.
Theorem cover_once p t u : (t < length ts)%nat -> (u < length ts)%nat -> inside t p -> inside u p -> t = u.
Proof.
  intros Lt_ Lu Ht Hu. apply (zsuml_two (wnt p) (seq 0 (length ts))).
  - apply wnt_01.
  - apply seq_NoDup.
  - fold (depth p). destruct (between_dec p) as [H|H]; apply depth_between in H; lia.
  - apply in_seq. unfold TriangleStore in *. lia.
  - apply in_seq. unfold TriangleStore in *. lia.
  - apply (wn3_ccw _ _ _ p (m_ccw M t Lt_)). exact Ht.
  - apply (wn3_ccw _ _ _ p (m_ccw M u Lu)). exact Hu.
Qed.
Theorem cover_all p : between p -> exists t, (t < length ts)%nat /\ inon t p.
Proof.
  intro H. apply depth_between in H. destruct (zsuml_01 (wnt p) _ (wnt_01 p)) as (_ & _ & K). destruct K as (t & It & Q); [fold (depth p); lia|].
  apply in_seq in It. exists t. assert (L : (t < length ts)%nat) by (unfold TriangleStore in *; lia). split; auto. apply (wn3_ccw _ _ _ p (m_ccw M t L)). exact Q.
Qed.
Theorem cover_only p t : (t < length ts)%nat -> inside t p -> between p.
Proof.
  intros L H. destruct (between_dec p) as [K|K]; auto. apply depth_between in K.
  destruct (zsuml_01 (wnt p) _ (wnt_01 p)) as (_ & X & _). specialize (X t ltac:(apply in_seq; unfold TriangleStore in *; lia)). fold (depth p) in X.
  apply (wn3_ccw _ _ _ p (m_ccw M t L)) in H. unfold wnt in X. lia.
Qed.
End Cover.
