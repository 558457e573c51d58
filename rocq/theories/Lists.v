(** * Lists: lemmas about the vector operations of Base.v *)
From Coq Require Import List Arith Bool Lia Permutation Sorted.
From Verif Require Import Base.
Import ListNotations.

Lemma list_set_length {A} (l : list A) i a : length (list_set l i a) = length l.
Proof. revert i; induction l as [|x l IH]; intros [|i]; simpl; auto. Qed.

Lemma nth_error_list_set_eq {A} (l : list A) i a :
  i < length l -> nth_error (list_set l i a) i = Some a.
Proof. revert i; induction l as [|x l IH]; intros [|i] H; simpl in *; try lia; auto. apply IH; lia. Qed.

Lemma nth_error_list_set_ne {A} (l : list A) i j a :
  i <> j -> nth_error (list_set l i a) j = nth_error l j.
Proof.
  revert i j; induction l as [|x l IH]; intros [|i] [|j] H; simpl; auto; try lia.
Qed.

Lemma nth_error_list_set {A} (l : list A) i j a :
  nth_error (list_set l i a) j =
  if i =? j then (if i <? length l then Some a else None) else nth_error l j.
Proof.
  destruct (Nat.eqb_spec i j) as [->|H]; [|apply nth_error_list_set_ne; auto].
  destruct (Nat.ltb_spec j (length l)).
  - apply nth_error_list_set_eq; auto.
  - apply nth_error_None; rewrite list_set_length; auto.
Qed.

Lemma list_set_same {A} (l : list A) i a : nth_error l i = Some a -> list_set l i a = l.
Proof.
  revert i; induction l as [|x l IH]; intros [|i] H; simpl in *; try congruence.
  f_equal; auto.
Qed.

Lemma list_set_oob {A} (l : list A) i a : length l <= i -> list_set l i a = l.
Proof. revert i; induction l as [|x l IH]; intros [|i] H; simpl in *; try lia; auto. f_equal; apply IH; lia. Qed.

Lemma map_list_set {A B} (f : A -> B) l i a : map f (list_set l i a) = list_set (map f l) i (f a).
Proof. revert i; induction l as [|x l IH]; intros [|i]; simpl; f_equal; auto. Qed.

Lemma list_set_firstn_skipn {A} (l : list A) i a :
  i < length l -> list_set l i a = firstn i l ++ a :: skipn (S i) l.
Proof. revert i; induction l as [|x l IH]; intros [|i] H; simpl in *; try lia; auto. f_equal; apply IH; lia. Qed.

Lemma list_insert_firstn_skipn {A} (l : list A) i a :
  i <= length l -> list_insert l i a = firstn i l ++ a :: skipn i l.
Proof. revert i; induction l as [|x l IH]; intros [|i] H; simpl in *; try lia; auto. f_equal; apply IH; lia. Qed.

Lemma list_remove_firstn_skipn {A} (l : list A) i :
  list_remove l i = firstn i l ++ skipn (S i) l.
Proof. revert i; induction l as [|x l IH]; intros [|i]; try reflexivity. simpl. f_equal; apply IH. Qed.

Lemma list_insert_length {A} (l : list A) i a : length (list_insert l i a) = S (length l).
Proof. revert i; induction l as [|x l IH]; intros [|i]; simpl; auto. Qed.

Lemma list_remove_length {A} (l : list A) i : i < length l -> length (list_remove l i) = length l - 1.
Proof.
  revert i; induction l as [|x l IH]; intros [|i] H; simpl in *; try lia. rewrite IH; lia.
Qed.

Lemma In_list_remove {A} (l : list A) i x : In x (list_remove l i) -> In x l.
Proof.
  rewrite list_remove_firstn_skipn, in_app_iff.
  intros [H|H].
  - rewrite <- (firstn_skipn i l), in_app_iff; auto.
  - rewrite <- (firstn_skipn (S i) l), in_app_iff; auto.
Qed.

Lemma In_list_insert {A} (l : list A) i a x : In x (list_insert l i a) -> x = a \/ In x l.
Proof.
  revert i; induction l as [|y l IH]; intros [|i]; simpl; intuition.
  apply IH in H0; intuition.
Qed.

Lemma In_list_set {A} (l : list A) i a x : In x (list_set l i a) -> x = a \/ In x l.
Proof.
  revert i; induction l as [|y l IH]; intros [|i]; simpl; intuition.
  apply IH in H0; intuition.
Qed.

Lemma get_unchecked_done {A} s (l : list A) i a : get_unchecked s l i = Done a <-> nth_error l i = Some a.
Proof. unfold get_unchecked; destruct (nth_error l i); split; congruence. Qed.

Lemma get_unchecked_in {A} s (l : list A) i : i < length l -> exists a, get_unchecked s l i = Done a /\ nth_error l i = Some a.
Proof.
  intro H. unfold get_unchecked. destruct (nth_error l i) eqn:E; eauto.
  apply nth_error_None in E; lia.
Qed.

Lemma nth_error_lt {A} (l : list A) i a : nth_error l i = Some a -> i < length l.
Proof. intro H; apply nth_error_Some; congruence. Qed.

Lemma nth_error_ex {A} (l : list A) i : i < length l -> exists a, nth_error l i = Some a.
Proof. intro H; destruct (nth_error l i) eqn:E; eauto. apply nth_error_None in E; lia. Qed.

Lemma nth_error_firstn {A} (l : list A) n i : nth_error (firstn n l) i = if i <? n then nth_error l i else None.
Proof.
  revert n i; induction l as [|x l IH]; intros [|n] [|i]; simpl; auto.
  - destruct (S i <? S n); auto.
  - rewrite IH. reflexivity.
Qed.

Lemma nth_error_skipn {A} (l : list A) n i : nth_error (skipn n l) i = nth_error l (n + i).
Proof. revert l; induction n as [|n IH]; intros [|x l]; simpl; auto. destruct i; auto. Qed.

Lemma nth_error_list_remove {A} (l : list A) i j :
  nth_error (list_remove l i) j = if j <? i then nth_error l j else nth_error l (S j).
Proof.
  revert i j; induction l as [|x l IH]; intros [|i] [|j]; simpl; auto.
  - destruct (S j <? S i); auto.
  - rewrite IH. change (S j <? S i) with (j <? i). destruct (j <? i); auto.
Qed.

Lemma nth_error_list_insert {A} (l : list A) i j a :
  i <= length l ->
  nth_error (list_insert l i a) j =
  if j <? i then nth_error l j else if j =? i then Some a else nth_error l (j - 1).
Proof.
  intro H. rewrite list_insert_firstn_skipn by auto.
  destruct (Nat.ltb_spec j i).
  - rewrite nth_error_app1 by (rewrite firstn_length; lia).
    rewrite nth_error_firstn. destruct (Nat.ltb_spec j i); auto; lia.
  - rewrite nth_error_app2 by (rewrite firstn_length; lia).
    rewrite firstn_length, Nat.min_l by lia.
    destruct (Nat.eqb_spec j i) as [->|Hn].
    + rewrite Nat.sub_diag; reflexivity.
    + destruct (j - i) as [|k] eqn:E; [lia|]. simpl. rewrite nth_error_skipn. f_equal; lia.
Qed.
