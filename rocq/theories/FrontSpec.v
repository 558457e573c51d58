(** * FrontSpec: searching the advancing front

    For a front whose keys are strictly increasing in (x, then y): binary
    search, the cached search and the search through a (possibly stale) node id
    are all exact. *)
From Coq Require Import List Arith Bool Lia ZArith.
From Verif Require Import Base Num Shape ShapeSpec Utils Points Front Exact Lists Monad.
Import ListNotations.

(** ** Specification *)
Section Spec.
Context {A : Arith} {E : Exact A}.

(** strictly increasing in (x, then y), all coordinates finite *)
Definition increasing (l : list Entry) : Prop :=
  Forall (fun e => finp (en_key e)) l /\
  forall i j a b, i < j -> nth_error l i = Some a -> nth_error l j = Some b -> xlt (zp (en_key a)) (zp (en_key b)).

(** what a search must answer: the position of the key, or the position where
    it would have to be inserted *)
Definition search_ok (l : list Entry) (key : Point) (r : found) : Prop :=
  match r with
  | FOk i => exists e, nth_error l i = Some e /\ zp (en_key e) = zp key
  | FErr i => i <= length l /\
      (forall j e, j < i -> nth_error l j = Some e -> xlt (zp (en_key e)) (zp key)) /\
      (forall j e, i <= j -> nth_error l j = Some e -> xlt (zp key) (zp (en_key e)))
  end.

(** the cache, if any, names a node and its position *)
Definition cache_ok (af : AdvancingFront) : Prop :=
  match access_cache af with
  | None => True
  | Some (p, i) => finp p /\ exists e, nth_error (nodes af) i = Some e /\ zp (en_key e) = zp p
  end.
(** the key lies between the first and the last node *)
Definition inside_front (af : AdvancingFront) (key : Point) : Prop :=
  (exists e, nth_error (nodes af) 0 = Some e /\ ~ xlt (zp key) (zp (en_key e))) /\
  (exists e, nth_error (nodes af) (length (nodes af) - 1) = Some e /\ ~ xlt (zp (en_key e)) (zp key)).

(** ** Binary search *)
Lemma inc_fin l i e : increasing l -> nth_error l i = Some e -> finp (en_key e).
Proof. intros [F _] H. rewrite Forall_forall in F. apply F. eapply nth_error_In; eauto. Qed.

Lemma bsearch_loop_ok l key : increasing l -> finp key -> forall fuel left right,
  right - left < fuel -> left <= right -> right <= length l ->
  (forall j e, j < left -> nth_error l j = Some e -> xlt (zp (en_key e)) (zp key)) ->
  (forall j e, right <= j -> nth_error l j = Some e -> xlt (zp key) (zp (en_key e))) ->
  search_ok l key (bsearch_loop fuel l key left right).
Proof.
  intros I Fk. induction fuel as [|f IH]; intros left right Lf Llr Lr H1 H2; [lia|]. cbn [bsearch_loop].
  destruct (Nat.ltb_spec left right) as [C|C].
  2:{ assert (left = right) by lia. subst right. split; [lia|]. auto. }
  assert (M : left <= left + (right - left) / 2 < right).
  { split; [lia|]. assert ((right - left) / 2 < right - left) by (apply Nat.div_lt; lia). lia. }
  set (mid := left + (right - left) / 2) in *. clearbody mid.
  destruct (nth_error_ex l mid) as [e Em]; [lia|]. rewrite Em.
  rewrite key_cmp_exact by (auto; eapply inc_fin; eauto).
  destruct (zcmp_spec (zp (en_key e)) (zp key)) as [Q|Q|Q].
  - exists e. auto.
  - apply IH; try lia; auto. intros j a Lj Hj. destruct (Nat.eq_dec j mid) as [->|Nj]; [congruence|].
    eapply xlt_trans; [|exact Q]. apply (proj2 I j mid a e); auto. lia.
  - apply IH; try lia; auto. intros j a Lj Hj. destruct (Nat.eq_dec j mid) as [->|Nj]; [congruence|].
    eapply xlt_trans; [exact Q|]. apply (proj2 I mid j e a); auto. lia.
Qed.
Theorem bsearch_ok l key : increasing l -> finp key -> search_ok l key (bsearch l key).
Proof.
  intros I F. apply bsearch_loop_ok; auto; try lia.
  intros j e L H. apply nth_error_lt in H. lia.
Qed.

(** search answers are unique *)
Lemma search_ok_unique l key r r' : increasing l -> search_ok l key r -> search_ok l key r' -> r = r'.
Proof.
  intros I. destruct r as [i|i], r' as [j|j]; simpl.
  - intros (a & A1 & A2) (b & B1 & B2). f_equal. destruct (Nat.lt_trichotomy i j) as [L|[L|L]]; auto.
    + pose proof (proj2 I i j a b L A1 B1) as X. rewrite A2, B2 in X. destruct (xlt_irrefl _ X).
    + pose proof (proj2 I j i b a L B1 A1) as X. rewrite A2, B2 in X. destruct (xlt_irrefl _ X).
  - intros (a & A1 & A2) (_ & B1 & B2). exfalso. destruct (Nat.lt_ge_cases i j) as [L|L].
    + specialize (B1 i a L A1). rewrite A2 in B1. apply (xlt_irrefl _ B1).
    + specialize (B2 i a L A1). rewrite A2 in B2. apply (xlt_irrefl _ B2).
  - intros (_ & B1 & B2) (a & A1 & A2). exfalso. destruct (Nat.lt_ge_cases j i) as [L|L].
    + specialize (B1 j a L A1). rewrite A2 in B1. apply (xlt_irrefl _ B1).
    + specialize (B2 j a L A1). rewrite A2 in B2. apply (xlt_irrefl _ B2).
  - intros (A0 & A1 & A2) (B0 & B1 & B2). f_equal. destruct (Nat.lt_trichotomy i j) as [L|[L|L]]; auto.
    + destruct (nth_error_ex l i) as [e X]; [lia|]. exfalso. apply (xlt_irrefl (zp key)).
      eapply xlt_trans; [apply (A2 i e); auto|apply (B1 i e); auto].
    + destruct (nth_error_ex l j) as [e X]; [lia|]. exfalso. apply (xlt_irrefl (zp key)).
      eapply xlt_trans; [apply (B2 j e); auto|apply (A1 j e); auto].
Qed.

Lemma increasing_firstn l n : increasing l -> increasing (firstn n l).
Proof.
  intros [F I]. split.
  - rewrite Forall_forall in *. intros e H. apply F. rewrite <- (firstn_skipn n l), in_app_iff. auto.
  - intros i j a b L. rewrite !nth_error_firstn. destruct (i <? n), (j <? n); try discriminate. apply I; auto.
Qed.
Lemma increasing_skipn l n : increasing l -> increasing (skipn n l).
Proof.
  intros [F I]. split.
  - rewrite Forall_forall in *. intros e H. apply F. rewrite <- (firstn_skipn n l), in_app_iff. auto.
  - intros i j a b L. rewrite !nth_error_skipn. apply I; lia.
Qed.

(** ** The cached search gives the same answer and does not panic *)
Theorem cached_search_ok af key : increasing (nodes af) -> cache_ok af -> finp key -> inside_front af key ->
  exists r, search_by_key_with_cache af key = Done r /\ search_ok (nodes af) key r.
Proof.
  intros I C Fk ((e0 & H0 & L0) & (eL & HL & LL)). unfold search_by_key_with_cache, cache_ok in *.
  destruct (access_cache af) as [[p i]|]; [|eexists; split; [reflexivity|apply bsearch_ok; auto]].
  destruct C as (Fp & e & Ei & Ep). rewrite key_cmp_exact by auto.
  pose proof (nth_error_lt _ _ _ Ei) as Li.
  destruct (zcmp_spec (zp p) (zp key)) as [Q|Q|Q].
  - eexists; split; [reflexivity|]. exists e. split; congruence.
  - (* cached node left of the key *)
    destruct (Nat.ltb_spec i (length (nodes af))); [|lia].
    destruct (Nat.eq_dec (i + 1) (length (nodes af))) as [El|Nl].
    { exfalso. apply LL. replace (length (nodes af) - 1) with i in HL by lia. assert (eL = e) by congruence. subst eL.
      rewrite Ep. exact Q. }
    destruct (nth_error_ex (nodes af) (i + 1)) as [e1 E1]; [lia|]. rewrite E1. cbn [unwrap rbind].
    rewrite key_cmp_exact by (auto; eapply inc_fin; eauto).
    assert (R : i <=? length (nodes af) = true) by (apply Nat.leb_le; lia).
    assert (G : search_ok (nodes af) key (found_add (bsearch (skipn i (nodes af)) key) i)).
    { pose proof (bsearch_ok _ key (increasing_skipn _ i I) Fk) as S.
      destruct (bsearch (skipn i (nodes af)) key) as [k|k]; simpl in *.
      - destruct S as (a & S1 & S2). rewrite nth_error_skipn in S1. exists a. rewrite Nat.add_comm. auto.
      - destruct S as (S0 & S1 & S2). rewrite skipn_length in S0. split; [lia|]. split.
        + intros j a Lj Hj. destruct (Nat.lt_ge_cases j i) as [Lt'|Ge].
          * eapply xlt_trans; [|exact Q]. rewrite <- Ep. apply (proj2 I j i a e); auto.
          * apply (S1 (j - i) a); [lia|]. rewrite nth_error_skipn. replace (i + (j - i)) with j by lia. auto.
        + intros j a Lj Hj. apply (S2 (j - i) a); [lia|]. rewrite nth_error_skipn. replace (i + (j - i)) with j by lia. auto. }
    destruct (zcmp_spec (zp (en_key e1)) (zp key)) as [Q1|Q1|Q1]; rewrite ?R; cbn [rassert rbind]; eexists; (split; [reflexivity|]); auto.
    split; [lia|]. split.
    + intros j a Lj Hj. destruct (Nat.eq_dec j i) as [->|Nj].
      * assert (a = e) by congruence. subst a. rewrite Ep; auto.
      * eapply xlt_trans; [|exact Q]. rewrite <- Ep. apply (proj2 I j i a e); auto. lia.
    + intros j a Lj Hj. destruct (Nat.eq_dec j (i + 1)) as [->|Nj]; [congruence|].
      eapply xlt_trans; [exact Q1|]. apply (proj2 I (i + 1) j e1 a); auto. lia.
  - (* cached node right of the key *)
    destruct i as [|i].
    { exfalso. apply L0. assert (e0 = e) by congruence. subst e0. rewrite Ep. exact Q. }
    destruct (nth_error_ex (nodes af) i) as [e1 E1]; [lia|]. rewrite E1. cbn [unwrap rbind].
    rewrite key_cmp_exact by (auto; eapply inc_fin; eauto).
    assert (R : S i <=? length (nodes af) = true) by (apply Nat.leb_le; lia).
    destruct (zcmp_spec (zp (en_key e1)) (zp key)) as [Q1|Q1|Q1].
    + eexists; split; [reflexivity|]. exists e1. replace (S i - 1) with i by lia. auto.
    + eexists; split; [reflexivity|]. split; [lia|]. split.
      * intros j a Lj Hj. destruct (Nat.eq_dec j i) as [->|Nj]; [congruence|].
        eapply xlt_trans; [|exact Q1]. apply (proj2 I j i a e1); auto. lia.
      * intros j a Lj Hj. destruct (Nat.eq_dec j (S i)) as [->|Nj]; [congruence|].
        eapply xlt_trans; [exact Q|]. rewrite <- Ep. apply (proj2 I (S i) j e a); auto. lia.
    + rewrite R. cbn [rassert rbind]. eexists; split; [reflexivity|].
      pose proof (bsearch_ok _ key (increasing_firstn _ (S i) I) Fk) as SS.
      destruct (bsearch (firstn (S i) (nodes af)) key) as [k|k]; cbn [search_ok] in *.
      * destruct SS as (a & S1 & S2). rewrite nth_error_firstn in S1. destruct (k <? S i); [|discriminate]. exists a. auto.
      * destruct SS as (S0 & S1 & S2). rewrite firstn_length in S0. split; [lia|]. split.
        -- intros j a Lj Hj. apply (S1 j a Lj). rewrite nth_error_firstn. destruct (Nat.ltb_spec j (S i)); auto. lia.
        -- intros j a Lj Hj. destruct (Nat.lt_ge_cases j (S i)) as [Lt'|Ge].
           ++ apply (S2 j a Lj). rewrite nth_error_firstn. destruct (Nat.ltb_spec j (S i)); auto. lia.
           ++ destruct (Nat.eq_dec j (S i)) as [->|Nj].
              ** assert (a = e) by congruence. subst a. congruence.
              ** eapply xlt_trans; [exact Q|]. rewrite <- Ep. apply (proj2 I (S i) j e a); auto. lia.
Qed.
End Spec.
