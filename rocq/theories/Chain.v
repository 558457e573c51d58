(** * Chain: operations on an advancing front that is an increasing chain *)
From Coq Require Import List Arith Bool Lia ZArith.
From Verif Require Import Base Num Shape ShapeSpec Utils Points Triangles Front Sweeper Monad Lists Exact FrontSpec Setup Boundary.
Import ListNotations.

Section S.
Context {A : Arith} {E : Exact A}.
Variable dbg : bool.
Variable points : Points.
Hypothesis PP : proper points.
Notation N := (npts points).
Notation zc := (zc points).

(** strictly increasing from head to tail, node coordinates are those of the node's point *)
Record chain (ns : list Entry) : Prop := {
  ch_inc : increasing ns;
  ch_key : forall e, In e ns -> nth_error (ps_points points) (en_pid e) = Some (en_key e);
  ch_first : exists e, nth_error ns 0 = Some e /\ en_pid e = ps_head points;
  ch_last : exists e, nth_error ns (length ns - 1) = Some e /\ en_pid e = ps_tail points;
  ch_tri : forall i e, S i < length ns -> nth_error ns i = Some e -> en_tri e <> None
}.

Section Facts.
Variable ns : list Entry.
Hypothesis C : chain ns.
Lemma ch_z e : In e ns -> zp (en_key e) = zc (en_pid e) /\ finp (en_key e) /\ en_pid e < N.
Proof.
  intro H. pose proof (ch_key _ C e H) as K. split; [unfold Setup.zc; rewrite K; auto|]. split.
  - destruct (ch_inc _ C) as [F _]. rewrite Forall_forall in F. auto.
  - apply nth_error_lt in K. exact K.
Qed.
Lemma ch_z' i e : nth_error ns i = Some e -> zp (en_key e) = zc (en_pid e) /\ finp (en_key e) /\ en_pid e < N.
Proof. intro H. apply ch_z. eapply nth_error_In; eauto. Qed.
Lemma ch_lt i j e e' : i < j -> nth_error ns i = Some e -> nth_error ns j = Some e' -> xlt (zc (en_pid e)) (zc (en_pid e')).
Proof.
  intros L H1 H2. pose proof (proj2 (ch_inc _ C) i j e e' L H1 H2) as X.
  rewrite (proj1 (ch_z' _ _ H1)), (proj1 (ch_z' _ _ H2)) in X. exact X.
Qed.
Lemma ch_nodup i j e e' : nth_error ns i = Some e -> nth_error ns j = Some e' -> en_pid e = en_pid e' -> i = j.
Proof.
  intros H1 H2 EE. destruct (Nat.lt_trichotomy i j) as [L|[L|L]]; auto.
  - pose proof (ch_lt _ _ _ _ L H1 H2) as X. rewrite EE in X. destruct (xlt_irrefl _ X).
  - pose proof (ch_lt _ _ _ _ L H2 H1) as X. rewrite EE in X. destruct (xlt_irrefl _ X).
Qed.
Lemma ch_len : 2 <= length ns.
Proof.
  destruct (ch_first _ C) as (e & H & Q). destruct (ch_last _ C) as (e' & H' & Q').
  apply nth_error_lt in H as L. destruct (Nat.eq_dec (length ns) 1) as [X|X]; [|lia].
  rewrite X in H'. change (nth_error ns 0 = Some e') in H'. rewrite H in H'. injection H' as <-. pose proof (pr_head points PP). pose proof (pr_tail points PP). lia.
Qed.
Lemma ch_inside af id p : nodes af = ns -> nth_error (ps_points points) id = Some p -> inside_front af p.
Proof.
  intros En Hp. assert (L : id < N) by (eapply nth_error_lt; eauto).
  assert (Z : zp p = zc id) by (unfold Setup.zc; rewrite Hp; auto).
  destruct (frame_le points PP id L) as [F1 F2].
  destruct (ch_first _ C) as (e & H & Q). destruct (ch_last _ C) as (e' & H' & Q').
  split; rewrite En; [exists e|exists e']; split; auto; rewrite Z; [rewrite (proj1 (ch_z' _ _ H)), Q|rewrite (proj1 (ch_z' _ _ H')), Q']; auto.
Qed.
Lemma pt_finp id p : nth_error (ps_points points) id = Some p -> finp p /\ zp p = zc id.
Proof.
  intro Hp. split; [|unfold Setup.zc; rewrite Hp; auto].
  pose proof (pr_fin points PP) as F. rewrite Forall_forall in F. apply F. eapply nth_error_In; eauto.
Qed.
(** searching for the coordinates of a point finds the node of that point or no node has it *)
Lemma search_pid id p r : nth_error (ps_points points) id = Some p -> search_ok ns p r ->
  match r with
  | FOk i => exists e, nth_error ns i = Some e /\ en_pid e = id
  | FErr i => (forall j e, nth_error ns j = Some e -> en_pid e <> id) /\ 0 < i < length ns /\
      (forall j e, j < i -> nth_error ns j = Some e -> xlt (zc (en_pid e)) (zc id)) /\
      (forall j e, i <= j -> nth_error ns j = Some e -> xlt (zc id) (zc (en_pid e)))
  end.
Proof.
  intros Hp. destruct (pt_finp id p Hp) as [Fp Zp]. assert (L : id < N) by (eapply nth_error_lt; eauto).
  destruct (frame_le points PP id L) as [F1 F2].
  destruct r as [i|i]; simpl.
  - intros (e & H1 & H2). exists e. split; auto. destruct (ch_z' _ _ H1) as (Z1 & _ & L1). apply (pr_inj points PP); auto. congruence.
  - intros (H1 & H2 & H3).
    assert (H2' : forall j e, j < i -> nth_error ns j = Some e -> xlt (zc (en_pid e)) (zc id)).
    { intros j e L1 H. specialize (H2 j e L1 H). rewrite (proj1 (ch_z' _ _ H)), Zp in H2. auto. }
    assert (H3' : forall j e, i <= j -> nth_error ns j = Some e -> xlt (zc id) (zc (en_pid e))).
    { intros j e L1 H. specialize (H3 j e L1 H). rewrite (proj1 (ch_z' _ _ H)), Zp in H3. auto. }
    split; [|split; [|split; auto]].
    + intros j e H EE. destruct (Nat.lt_ge_cases j i) as [L1|L1].
      * specialize (H2' j e L1 H). rewrite EE in H2'. destruct (xlt_irrefl _ H2').
      * specialize (H3' j e L1 H). rewrite EE in H3'. destruct (xlt_irrefl _ H3').
    + destruct (ch_first _ C) as (e & H & Q). destruct (ch_last _ C) as (e' & H' & Q'). split.
      * destruct i; [|lia]. specialize (H3' 0 e ltac:(lia) H). rewrite Q in H3'. tauto.
      * destruct (Nat.eq_dec i (length ns)) as [->|]; [|lia]. apply nth_error_lt in H' as L2.
        specialize (H2' (length ns - 1) e' ltac:(lia) H'). rewrite Q' in H2'. tauto.
Qed.
End Facts.

(** ** the front of a state: chain and cache *)
Definition front_ok (af : AdvancingFront) : Prop := chain (nodes af) /\ cache_ok af.

Lemma search_ok_plain af p : chain (nodes af) -> finp p -> search_ok (nodes af) p (search_by_key af p).
Proof. intros C F. apply bsearch_ok; auto. apply C. Qed.
Lemma search_ok_cache af id p : front_ok af -> nth_error (ps_points points) id = Some p ->
  exists r, search_by_key_with_cache af p = Done r /\ search_ok (nodes af) p r.
Proof using PP.
  intros [C K] Hp. apply cached_search_ok; auto; [apply C|eapply pt_finp; eauto|eapply ch_inside; eauto].
Qed.
(** a node id whose coordinates are those of its point; the index hint is arbitrary *)
Definition nid_ok (id : NodeId) : Prop := nth_error (ps_points points) (ni_pid id) = Some (ni_point id).
Lemma resolve_ok af id : chain (nodes af) -> nid_ok id -> search_ok (nodes af) (ni_point id) (resolve_index_for_id af id).
Proof using PP.
  intros C H. destruct (pt_finp _ _ H) as [F Z]. unfold resolve_index_for_id.
  destruct (nth_error (nodes af) (ni_hint id)) as [e|] eqn:En; [|apply search_ok_plain; auto].
  destruct (Nat.eqb_spec (en_pid e) (ni_pid id)) as [EE|NE]; [|apply search_ok_plain; auto].
  simpl. exists e. split; auto. rewrite (proj1 (ch_z' _ C _ _ En)). congruence.
Qed.

(** lookups: what they return on a chain *)
Definition nref_ok (ns : list Entry) (n : NodeRef) : Prop :=
  exists e, nth_error ns (nr_index n) = Some e /\ n = to_node e (nr_index n).
Lemma get_node_with_id_ok af id : chain (nodes af) -> nid_ok id ->
  exists o, get_node_with_id af id = Done o /\
  match o with
  | Some n => nref_ok (nodes af) n /\ nr_pid n = ni_pid id
  | None => forall i e, nth_error (nodes af) i = Some e -> en_pid e <> ni_pid id
  end.
Proof using PP.
  intros C H. pose proof (search_pid _ C _ _ _ H (resolve_ok af id C H)) as S. unfold get_node_with_id.
  destruct (resolve_index_for_id af id) as [i|i].
  - destruct S as (e & En & Ep). unfold get_unchecked. rewrite En. simpl. eexists; split; [reflexivity|]. split; [exists e; auto|auto].
  - eexists; split; [reflexivity|]. exact (proj1 S).
Qed.

(** ** updates *)
Lemma set_tri_chain ns k e t : chain ns -> nth_error ns k = Some e -> t <> None -> chain (list_set ns k (set_tri e t)).
Proof.
  intros C H Ht. assert (L := nth_error_lt _ _ _ H).
  assert (G : forall j x, nth_error (list_set ns k (set_tri e t)) j = Some x ->
     exists y, nth_error ns j = Some y /\ en_key y = en_key x /\ en_pid y = en_pid x /\ (en_tri x = t \/ en_tri y = en_tri x)).
  { intros j x Hx. rewrite nth_error_list_set in Hx. destruct (Nat.eqb_spec k j) as [<-|].
    - rewrite (proj2 (Nat.ltb_lt _ _) L) in Hx. injection Hx as <-. exists e. auto.
    - exists x. auto. }
  assert (G' : forall j y, nth_error ns j = Some y -> exists x, nth_error (list_set ns k (set_tri e t)) j = Some x /\ en_pid x = en_pid y).
  { intros j y Hy. rewrite nth_error_list_set. destruct (Nat.eqb_spec k j) as [<-|]; [|eauto].
    rewrite (proj2 (Nat.ltb_lt _ _) L). eexists; split; [reflexivity|]. simpl. congruence. }
  constructor.
  - destruct (ch_inc _ C) as [F I]. split.
    + rewrite Forall_forall in *. intros x Hx. apply In_nth_error in Hx as [j Hj]. destruct (G j x Hj) as (y & Hy & Ky & _). rewrite <- Ky. apply F. eapply nth_error_In; eauto.
    + intros i j a b Lij Ha Hb. destruct (G i a Ha) as (y & Hy & Ky & _). destruct (G j b Hb) as (z & Hz & Kz & _). rewrite <- Ky, <- Kz. eapply I; eauto.
  - intros x Hx. apply In_nth_error in Hx as [j Hj]. destruct (G j x Hj) as (y & Hy & Ky & Py & _). rewrite <- Ky, <- Py. apply C. eapply nth_error_In; eauto.
  - destruct (ch_first _ C) as (y & Hy & Py). destruct (G' _ _ Hy) as (x & Hx & Px). exists x. split; auto. congruence.
  - rewrite list_set_length. destruct (ch_last _ C) as (y & Hy & Py). destruct (G' _ _ Hy) as (x & Hx & Px). exists x. split; auto. congruence.
  - intros i x Li Hx. rewrite list_set_length in Li. destruct (G i x Hx) as (y & Hy & _ & _ & Q). destruct Q as [Q|Q]; [congruence|].
    rewrite <- Q. apply (ch_tri _ C i y Li Hy).
Qed.
Lemma set_tri_cache af k e t : cache_ok af -> nth_error (nodes af) k = Some e ->
  cache_ok (mkFront (list_set (nodes af) k (set_tri e t)) (access_cache af)).
Proof.
  intros K H. unfold cache_ok in *. simpl. destruct (access_cache af) as [[p i]|]; auto. destruct K as (Fp & x & Hx & Zx).
  split; auto. rewrite nth_error_list_set. destruct (Nat.eqb_spec k i) as [<-|]; [|eauto].
  rewrite (proj2 (Nat.ltb_lt _ _) (nth_error_lt _ _ _ H)). eexists; split; [reflexivity|]. simpl. congruence.
Qed.
(** update_triangle on a point of the front *)
Lemma update_triangle_ok af id p t k e : front_ok af -> nth_error (ps_points points) id = Some p ->
  nth_error (nodes af) k = Some e -> en_pid e = id ->
  update_triangle af p t = Done (mkFront (list_set (nodes af) k (set_tri e t)) (access_cache af)).
Proof using PP.
  intros FO Hp He Pe. destruct (search_ok_cache af id p FO Hp) as (r & R1 & R2). unfold update_triangle. rewrite R1. cbn [rbind].
  pose proof (search_pid _ (proj1 FO) _ _ _ Hp R2) as S. destruct r as [i|i].
  - destruct S as (e' & He' & Pe'). assert (i = k) by (eapply ch_nodup; eauto; [apply FO|congruence]). subst i.
    rewrite He' in He. injection He as ->. rewrite He'. reflexivity.
  - destruct S as [S _]. destruct (S k e He Pe).
Qed.

(** inserting a point that is not on the front *)
Lemma insert_chain af id p t : front_ok af -> nth_error (ps_points points) id = Some p -> t <> None ->
  (forall i e, nth_error (nodes af) i = Some e -> en_pid e <> id) ->
  exists k, 0 < k < length (nodes af) /\ locate_node dbg af p = Done (to_node (nth (k - 1) (nodes af) (mkEntry p id t)) (k - 1)) /\
    front_insert dbg af id p t = Done (mkFront (list_insert (nodes af) k (mkEntry p id t)) (Some (p, k))) /\
    front_ok (mkFront (list_insert (nodes af) k (mkEntry p id t)) (Some (p, k))) /\
    (forall j e, j < k -> nth_error (nodes af) j = Some e -> xlt (zc (en_pid e)) (zc id)) /\
    (forall j e, k <= j -> nth_error (nodes af) j = Some e -> xlt (zc id) (zc (en_pid e))).
Proof using PP.
  intros [C K] Hp Ht NO. destruct (pt_finp _ _ Hp) as [Fp Zp].
  pose proof (search_pid _ C _ _ _ Hp (search_ok_plain af p C Fp)) as S.
  unfold locate_node, front_insert. destruct (search_by_key af p) as [i|k]; [destruct S as (e & H1 & H2); destruct (NO i e H1 H2)|].
  destruct S as (_ & Lk & S1 & S2). exists k. split; auto.
  assert (Ti : tid_invalid t = false) by (destruct t; [reflexivity|congruence]). rewrite Ti.
  destruct k as [|k]; [lia|]. replace (S k - 1) with k by lia.
  split. { cbn [rbind]. unfold get_unchecked. rewrite (nth_error_nth' _ (mkEntry p id t)) by lia. reflexivity. }
  split. { destruct dbg; reflexivity. }
  split; [|split; auto]. set (x := mkEntry p id t).
  assert (NE : forall j, nth_error (list_insert (nodes af) (S k) x) j = if j <? S k then nth_error (nodes af) j else if j =? S k then Some x else nth_error (nodes af) (j - 1)).
  { intro j. apply nth_error_list_insert. lia. }
  split; cbn [nodes].
  - constructor.
    + split.
      * pose proof (proj1 (ch_inc _ C)) as F. rewrite Forall_forall in *. intros e He. apply In_list_insert in He as [->|He]; auto.
      * intros i j a b Lij. rewrite !NE. intros Ha Hb.
        assert (Kx : forall y m, nth_error (nodes af) m = Some y -> zp (en_key y) = zc (en_pid y)) by (intros y m Hy; apply (ch_z' _ C _ _ Hy)).
        destruct (Nat.ltb_spec i (S k)), (Nat.ltb_spec j (S k)); try lia.
        { apply (proj2 (ch_inc _ C) i j); auto. }
        { destruct (Nat.eqb_spec j (S k)).
          - injection Hb as <-. simpl. rewrite (Kx _ _ Ha), Zp. eapply S1; [|exact Ha]. lia.
          - apply (proj2 (ch_inc _ C) i (j - 1)); auto; lia. }
        { destruct (Nat.eqb_spec j (S k)); [lia|]. destruct (Nat.eqb_spec i (S k)).
          - injection Ha as <-. simpl. rewrite (Kx _ _ Hb), Zp. eapply S2; [|exact Hb]. lia.
          - apply (proj2 (ch_inc _ C) (i - 1) (j - 1)); auto; lia. }
    + intros e He. apply In_list_insert in He as [->|He]; [exact Hp|]. apply C; auto.
    + destruct (ch_first _ C) as (e & He & Pe). exists e. rewrite NE. auto.
    + rewrite list_insert_length. destruct (ch_last _ C) as (e & He & Pe). exists e. rewrite NE.
      destruct (Nat.ltb_spec (S (length (nodes af)) - 1) (S k)); [lia|]. destruct (Nat.eqb_spec (S (length (nodes af)) - 1) (S k)); [lia|].
      replace (S (length (nodes af)) - 1 - 1) with (length (nodes af) - 1) by lia. auto.
    + rewrite list_insert_length. intros i e Li. rewrite NE. destruct (Nat.ltb_spec i (S k)).
      * apply C. lia.
      * destruct (Nat.eqb_spec i (S k)); [intro X; injection X as <-; auto|]. apply C. lia.
  - unfold cache_ok. simpl access_cache. split; auto. exists x. cbn [nodes]. rewrite NE, Nat.ltb_irrefl, Nat.eqb_refl. auto.
Qed.

(** removing an inner node *)
Lemma remove_chain ns d : chain ns -> 0 < d -> S d < length ns -> chain (list_remove ns d).
Proof.
  intros C L1 L2. assert (NE : forall j, nth_error (list_remove ns d) j = if j <? d then nth_error ns j else nth_error ns (S j)) by (intro; apply nth_error_list_remove).
  assert (LL : length (list_remove ns d) = length ns - 1) by (apply list_remove_length; lia).
  constructor.
  - split.
    + pose proof (proj1 (ch_inc _ C)) as F. rewrite Forall_forall in *. intros e He. apply In_list_remove in He. auto.
    + intros i j a b Lij. rewrite !NE. destruct (Nat.ltb_spec i d), (Nat.ltb_spec j d); apply (ch_inc _ C); lia.
  - intros e He. apply In_list_remove in He. apply C; auto.
  - destruct (ch_first _ C) as (e & He & Pe). exists e. rewrite NE. destruct (Nat.ltb_spec 0 d); [auto|lia].
  - destruct (ch_last _ C) as (e & He & Pe). exists e. rewrite NE, LL. destruct (Nat.ltb_spec (length ns - 1 - 1) d); [lia|].
    replace (S (length ns - 1 - 1)) with (length ns - 1) by lia. auto.
  - rewrite LL. intros i e Li. rewrite NE. destruct (Nat.ltb_spec i d); apply C; lia.
Qed.
End S.
