(** * SortSpec: the sweep order *)
From Coq Require Import List Arith Bool Lia Permutation Sorted ZArith.
From Verif Require Import Base Num Shape Points Front Exact Lists.
Import ListNotations.

Section Perm.
Context {A : Arith}.
Lemma y_insert_perm x l : Permutation (y_insert x l) (x :: l).
Proof.
  induction l as [|z l IH]; simpl; auto. destruct (y_less (snd z) (snd x)); auto.
  rewrite IH. constructor.
Qed.
Lemma y_sort_perm l : Permutation (y_sort l) l.
Proof. induction l as [|x l IH]; simpl; auto. rewrite y_insert_perm, IH. auto. Qed.
Lemma enumerate_fst {T} (l : list T) : map fst (enumerate l) = seq 0 (length l).
Proof.
  unfold enumerate. assert (G : forall k, map fst (combine (seq k (length l)) l) = seq k (length l)); [|apply G].
  induction l as [|x l IH]; intro k; simpl; [auto|]. rewrite IH. auto.
Qed.
Lemma enumerate_in {T} (l : list T) i x : In (i, x) (enumerate l) <-> nth_error l i = Some x.
Proof.
  unfold enumerate. assert (G : forall k, In (i, x) (combine (seq k (length l)) l) <-> k <= i /\ nth_error l (i - k) = Some x).
  { induction l as [|y l IH]; intro k; simpl.
    - split; [tauto|]. intros [_ H]. destruct (i - k); discriminate.
    - rewrite IH. split.
      + intros [H|[H1 H2]]; [injection H as -> ->; rewrite Nat.sub_diag; auto|].
        split; [lia|]. replace (i - k) with (S (i - S k)) by lia. auto.
      + intros [H1 H2]. destruct (Nat.eq_dec i k) as [->|N].
        * rewrite Nat.sub_diag in H2. injection H2 as ->; auto.
        * right. split; [lia|]. replace (i - k) with (S (i - S k)) in H2 by lia. auto. }
  rewrite G. rewrite Nat.sub_0_r. split; [tauto|split; [lia|auto]].
Qed.
Lemma y_sorted_perm points edges : Permutation (ps_y_sorted (points_new points edges)) (seq 0 (length points)).
Proof. simpl. rewrite <- enumerate_fst. apply Permutation_map, y_sort_perm. Qed.
End Perm.

Section Sorted.
Context {A : Arith} {E : Exact A}.
(** a is not above b in the sweep order *)
Definition yle (a b : Point) : Prop := ~ ylt (zp b) (zp a).
Lemma yle_trans a b c : yle a b -> yle b c -> yle a c.
Proof. unfold yle, ylt; lia. Qed.

Lemma y_insert_sorted x l : finp (snd x) -> Forall (fun z => finp (snd z)) l ->
  StronglySorted (fun a b => yle (snd a) (snd b)) l -> StronglySorted (fun a b => yle (snd a) (snd b)) (y_insert x l).
Proof.
  intros Fx Fl S. induction S as [|z l S IH H]; simpl; [repeat constructor|].
  inversion Fl; subst. destruct (y_less (snd z) (snd x)) eqn:Y.
  - constructor; [apply IH; auto|]. apply y_less_exact in Y; auto.
    rewrite (y_insert_perm x l). constructor; [unfold yle, ylt in *; lia|auto].
  - assert (N : ~ ylt (zp (snd z)) (zp (snd x))) by (rewrite <- y_less_exact by auto; congruence).
    constructor; [constructor; auto|]. constructor; [exact N|].
    eapply Forall_impl; [|exact H]. simpl. intros a Ha. eapply yle_trans; [|exact Ha]. exact N.
Qed.
Lemma y_sort_sorted l : Forall (fun z => finp (snd z)) l -> StronglySorted (fun a b => yle (snd a) (snd b)) (y_sort l).
Proof.
  induction l as [|x l IH]; simpl; [constructor|]. intro F. inversion F; subst.
  apply y_insert_sorted; auto. rewrite (y_sort_perm l); auto.
Qed.

Lemma StronglySorted_map {X Y} (f : X -> Y) (R : X -> X -> Prop) (R' : Y -> Y -> Prop) l :
  (forall x y, In x l -> In y l -> R x y -> R' (f x) (f y)) -> StronglySorted R l -> StronglySorted R' (map f l).
Proof.
  intros H S. induction S as [|a l S IH HF]; simpl; constructor.
  - apply IH. intros; apply H; simpl; auto.
  - rewrite Forall_forall in *. intros y Hy. apply in_map_iff in Hy as (x & <- & Hx). apply H; simpl; auto.
Qed.

(** [i] comes before [j] *)
Definition id_yle (points : list Point) (i j : nat) : Prop :=
  forall a b, nth_error points i = Some a -> nth_error points j = Some b -> yle a b.
Lemma y_sorted_sorted points edges : Forall finp points ->
  StronglySorted (id_yle points) (ps_y_sorted (points_new points edges)).
Proof.
  intro F. simpl. 
  assert (G : Forall (fun z => finp (snd z)) (enumerate points)).
  { rewrite Forall_forall. intros [i x] H. apply enumerate_in, nth_error_In in H. rewrite Forall_forall in F; auto. }
  eapply StronglySorted_map; [|apply y_sort_sorted; auto].
  intros [i x] [j y] Hx Hy R a b Ha Hb. simpl in *.
  apply (Permutation_in _ (y_sort_perm _)), enumerate_in in Hx.
  apply (Permutation_in _ (y_sort_perm _)), enumerate_in in Hy. congruence.
Qed.
End Sorted.
