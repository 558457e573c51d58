(** * Count: how many triangles a conforming triangulation has

    For any list of counter-clockwise triangles that do not overlap and conform to the edges of some disjoint simple
    polygons.  Every triangle has one corner that is the middle one in the order of [ell]; the triangles are counted
    at these corners. *)
From Coq Require Import List Arith Bool Lia ZArith Psatz Permutation.
From Verif Require Import Base Lists Exact Geom Legal Winding Disc Stokes CoverRun Region PropsTri PropsCdt Hopf Fan.
Import ListNotations.
Local Open Scope Z_scope.

Lemma zsum_front (f : nat -> Z) m : zsum f (S m) = f 0%nat + zsum (fun i => f (S i)) m.
Proof. induction m as [|m IH]; [cbn; lia|]. cbn [zsum] in *. lia. Qed.

Lemma dir_in (v a b w : zpt) : 0 < orient v a b -> 0 < vx (vsub a v) w -> 0 < vx w (vsub b v) ->
  forall k, vx (vsub a v) w + vx w (vsub b v) < k -> strictly_inside (scaled k v) (scaled k a) (scaled k b) (k * fst v + fst w, k * snd v + snd w).
Proof.
  intros O H1 H2 k L. set (s1 := vx (vsub a v) w) in *. set (s2 := vx w (vsub b v)) in *.
  assert (K0 : 0 < k) by lia. unfold strictly_inside.
  assert (E1 : orient (scaled k v) (scaled k a) (k * fst v + fst w, k * snd v + snd w) = k * s1) by (unfold s1, vx, vsub, scaled; zpts; ring).
  assert (E2 : orient (scaled k b) (scaled k v) (k * fst v + fst w, k * snd v + snd w) = k * s2) by (unfold s2, vx, vsub, scaled; zpts; ring).
  assert (E3 : orient (scaled k a) (scaled k b) (k * fst v + fst w, k * snd v + snd w) = k * (k * orient v a b - s1 - s2)) by (unfold s1, s2, vx, vsub, scaled; zpts; ring).
  rewrite E1, E2, E3. clearbody s1 s2. split; [|split]; apply Z.mul_pos_pos; auto. nia.
Qed.
Lemma orient_vx v a b : orient v a b = vx (vsub a v) (vsub b v). Proof. unfold vx, vsub. zpts. ring. Qed.
Definition comb (K : Z) (u w : zpt) : zpt := (K * fst u + fst w, K * snd u + snd w).
Lemma vx_comb_l K u w x : vx (comb K u w) x = K * vx u x + vx w x. Proof. unfold vx, comb. cbn [fst snd]. ring. Qed.
Lemma vx_comb_r K u w x : vx x (comb K u w) = K * vx x u + vx x w. Proof. unfold vx, comb. cbn [fst snd]. ring. Qed.
Lemma vx_same u : vx u u = 0. Proof. unfold vx. ring. Qed.

(** the two other corners of a triangle, counter-clockwise *)
Definition sec (t : nat * nat * nat) (v : nat) : option (nat * nat) := let '(a, b, c) := t in
  if Nat.eqb a v then Some (b, c) else if Nat.eqb b v then Some (c, a) else if Nat.eqb c v then Some (a, b) else None.
Definition o2l {T} (o : option T) : list T := match o with Some x => [x] | None => [] end.
Lemma NoDup_app2 {T} (a b : list T) : NoDup a -> NoDup b -> (forall x, In x a -> In x b -> False) -> NoDup (a ++ b).
Proof.
  induction a as [|x a IH]; intros H1 H2 H3; auto. inversion H1; subst. cbn [app]. constructor.
  - rewrite in_app_iff. intros [Q|Q]; auto. apply (H3 x); simpl; auto.
  - apply IH; auto. intros y I1 I2. apply (H3 y); simpl; auto.
Qed.
Lemma NoDup_flat {T U} (g : T -> list U) l : NoDup l -> (forall x, In x l -> NoDup (g x)) -> (forall x y u, In x l -> In y l -> In u (g x) -> In u (g y) -> x = y) -> NoDup (flat_map g l).
Proof.
  induction l as [|a l IH]; intros ND H1 H2; [constructor|]. inversion ND as [|? ? NI ND']; subst. cbn [flat_map]. apply NoDup_app2.
  { apply H1; simpl; auto. } { apply IH; auto; [intros; apply H1; simpl; auto|intros x y u I1 I2; apply H2; simpl; auto]. }
  intros u I1 I2. apply in_flat_map in I2 as (y & Iy & I2). apply NI. rewrite (H2 a y u); simpl; auto.
Qed.

Section C.
Variable n : nat.
Variable z : nat -> zpt.
Variable tris : list (nat * nat * nat).
Hypothesis GPd : forall i j, (i < n)%nat -> (j < n)%nat -> i <> j -> z i <> z j.
Hypothesis GPo : forall i j k, (i < n)%nat -> (j < n)%nat -> (k < n)%nat -> i <> j -> j <> k -> i <> k -> orient (z i) (z j) (z k) <> 0.
Hypothesis TC : forall a b c, In (a, b, c) tris -> (a < n /\ b < n /\ c < n)%nat /\ 0 < orient (z a) (z b) (z c).
Hypothesis TO : forall i j t u k p, 0 < k -> nth_error tris i = Some t -> nth_error tris j = Some u -> point_in z t k p -> point_in z u k p -> i = j.

Lemma over_in t u k p : 0 < k -> In t tris -> In u tris -> point_in z t k p -> point_in z u k p -> t = u.
Proof.
  intros K0 It Iu P1 P2. apply In_nth_error in It as [i It], Iu as [j Iu]. assert (i = j) by (eapply TO; eauto). subst. congruence.
Qed.
Lemma tris_nodup : NoDup tris.
Proof.
  apply NoDup_nth_error. intros i j Li E. destruct (nth_error tris i) as [[[a b] c]|] eqn:Q; [|apply nth_error_None in Q; lia]. symmetry in E.
  pose proof (TC a b c (nth_error_In _ _ Q)) as [_ O].
  assert (P : point_in z (a, b, c) 3 (fst (z a) + fst (z b) + fst (z c), snd (z a) + snd (z b) + snd (z c))).
  { unfold point_in, strictly_inside. set (A := z a) in *. set (B := z b) in *. set (C := z c) in *. 
    assert (E1 : orient (scaled 3 A) (scaled 3 B) (fst A + fst B + fst C, snd A + snd B + snd C) = 3 * orient A B C) by (unfold scaled; zpts; ring).
    assert (E2 : orient (scaled 3 B) (scaled 3 C) (fst A + fst B + fst C, snd A + snd B + snd C) = 3 * orient A B C) by (unfold scaled; zpts; ring).
    assert (E3 : orient (scaled 3 C) (scaled 3 A) (fst A + fst B + fst C, snd A + snd B + snd C) = 3 * orient A B C) by (unfold scaled; zpts; ring).
    rewrite E1, E2, E3. lia. }
  eapply TO; [|exact Q|exact E|exact P|exact P]. lia.
Qed.
Lemma corners_ne a b c : In (a, b, c) tris -> a <> b /\ b <> c /\ a <> c.
Proof.
  intro H. apply TC in H as [_ O]. split; [|split]; intros ->; revert O; [destruct (z b), (z c)|destruct (z a), (z c)|destruct (z b), (z c)]; zpts; intro O; ring_simplify in O; lia.
Qed.

(** ** the sectors at v *)
Definition secs (v : nat) : list (nat * nat) := flat_map (fun t => o2l (sec t v)) tris.
Lemma secs_in v a b : In (a, b) (secs v) <-> exists t, In t tris /\ sec t v = Some (a, b).
Proof.
  unfold secs. rewrite in_flat_map. split; intros (t & It & Q); exists t; split; auto.
  - destruct (sec t v); [destruct Q as [->|[]]; reflexivity|destruct Q].
  - rewrite Q. simpl. auto.
Qed.
Lemma sec_spec t v a b : In t tris -> sec t v = Some (a, b) -> (v < n /\ a < n /\ b < n)%nat /\ 0 < orient (z v) (z a) (z b) /\ v <> a /\ v <> b /\ a <> b /\
  In (v, a) (sides t) /\ In (b, v) (sides t) /\ forall k p, strictly_inside (scaled k (z v)) (scaled k (z a)) (scaled k (z b)) p -> point_in z t k p.
Proof.
  destruct t as [[x y] w]. intros It Q. pose proof (corners_ne x y w It) as (D1 & D2 & D3). pose proof (TC x y w It) as ((L1 & L2 & L3) & O).
  unfold sec in Q. unfold sides, point_in, strictly_inside.
  destruct (Nat.eqb_spec x v) as [->|N1]; [injection Q as <- <-|destruct (Nat.eqb_spec y v) as [->|N2]; [injection Q as <- <-|destruct (Nat.eqb_spec w v) as [->|N3]; [injection Q as <- <-|discriminate]]].
  all: refine (conj _ (conj _ (conj _ (conj _ (conj _ (conj _ (conj _ _))))))); try (split; [assumption|split; assumption]); try exact O; try (rewrite orient_rot; exact O); try (rewrite orient_rot'; exact O);
    try assumption; try (apply not_eq_sym; assumption); try (simpl; tauto); intros k p (H1 & H2 & H3); repeat split; assumption.
Qed.
Lemma side_sec t x y : In t tris -> In (x, y) (sides t) -> (exists b, sec t x = Some (y, b)) /\ (exists a, sec t y = Some (a, x)).
Proof.
  destruct t as [[a b] c]. intros It Q. pose proof (corners_ne a b c It) as (D1 & D2 & D3). unfold sec.
  assert (N1 : Nat.eqb a b = false) by (apply Nat.eqb_neq; auto). assert (N2 : Nat.eqb b c = false) by (apply Nat.eqb_neq; auto). assert (N3 : Nat.eqb a c = false) by (apply Nat.eqb_neq; auto).
  assert (N4 : Nat.eqb b a = false) by (apply Nat.eqb_neq; auto).
  destruct Q as [Q|[Q|[Q|[]]]]; injection Q as <- <-; rewrite ?Nat.eqb_refl, ?N1, ?N2, ?N3, ?N4, ?Nat.eqb_refl; eauto.
Qed.
Definition left (x y : nat) : Prop := exists t, In t tris /\ In (x, y) (sides t).
Lemma st_left v x : In x (map fst (secs v)) <-> left v x.
Proof.
  rewrite in_map_iff. split.
  - intros ([a b] & <- & H). apply secs_in in H as (t & It & Q). exists t. split; auto. apply (sec_spec t v a b It Q).
  - intros (t & It & Q). destruct (side_sec t v x It Q) as [[b E] _]. exists (x, b). split; auto. apply secs_in. eauto.
Qed.
Lemma en_left v x : In x (map snd (secs v)) <-> left x v.
Proof.
  rewrite in_map_iff. split.
  - intros ([a b] & <- & H). apply secs_in in H as (t & It & Q). exists t. split; auto. apply (sec_spec t v a b It Q).
  - intros (t & It & Q). destruct (side_sec t x v It Q) as [_ [a E]]. exists (a, x). split; auto. apply secs_in. eauto.
Qed.
Definition dirin (v a b : nat) (w : zpt) : Prop := 0 < vx (vsub (z a) (z v)) w /\ 0 < vx w (vsub (z b) (z v)).
Lemma common v a b c d t u w : In t tris -> sec t v = Some (a, b) -> In u tris -> sec u v = Some (c, d) -> dirin v a b w -> dirin v c d w -> t = u.
Proof.
  intros It Q1 Iu Q2 [A1 A2] [B1 B2]. destruct (sec_spec t v a b It Q1) as (_ & O1 & _ & _ & _ & _ & _ & P1). destruct (sec_spec u v c d Iu Q2) as (_ & O2 & _ & _ & _ & _ & _ & P2).
  set (k := vx (vsub (z a) (z v)) w + vx w (vsub (z b) (z v)) + vx (vsub (z c) (z v)) w + vx w (vsub (z d) (z v)) + 1).
  apply (over_in t u k (k * fst (z v) + fst w, k * snd (z v) + snd w)); auto; [unfold k; lia|apply P1|apply P2]; apply dir_in; auto; unfold k; lia.
Qed.
Definition bigK (a b : Z) : Z := Z.abs a + Z.abs b + 1.
Lemma bigK_pos a b x : 0 < x -> 0 < bigK a b * x + a /\ 0 < bigK a b * x + b. Proof. unfold bigK. nia. Qed.
Lemma same_start v a b b' t u : In t tris -> sec t v = Some (a, b) -> In u tris -> sec u v = Some (a, b') -> t = u.
Proof.
  intros It Q1 Iu Q2. destruct (sec_spec t v a b It Q1) as (_ & O1 & _). destruct (sec_spec u v a b' Iu Q2) as (_ & O2 & _). rewrite orient_vx in O1, O2.
  set (va := vsub (z a) (z v)) in *. set (vb := vsub (z b) (z v)) in *. set (vb' := vsub (z b') (z v)) in *.
  set (K := bigK (vx vb' vb) (vx vb vb')).
  apply (common v a b a b' t u (comb K va (comb 1 vb vb'))); auto; unfold dirin; fold va vb vb'; rewrite !vx_comb_l, !vx_comb_r, !vx_same.
  - pose proof (bigK_pos (vx vb' vb) (vx vb vb') _ O1) as [H1 H2]. fold K in H1, H2. lia.
  - pose proof (bigK_pos (vx vb' vb) (vx vb vb') _ O2) as [H1 H2]. fold K in H1, H2. lia.
Qed.
Lemma same_end v a a' b t u : In t tris -> sec t v = Some (a, b) -> In u tris -> sec u v = Some (a', b) -> t = u.
Proof.
  intros It Q1 Iu Q2. destruct (sec_spec t v a b It Q1) as (_ & O1 & _). destruct (sec_spec u v a' b Iu Q2) as (_ & O2 & _). rewrite orient_vx in O1, O2.
  set (va := vsub (z a) (z v)) in *. set (vb := vsub (z b) (z v)) in *. set (va' := vsub (z a') (z v)) in *.
  set (K := bigK (vx va va') (vx va' va)).
  apply (common v a b a' b t u (comb K vb (comb 1 va va'))); auto; unfold dirin; fold va vb va'; rewrite !vx_comb_l, !vx_comb_r, !vx_same.
  - pose proof (bigK_pos (vx va va') (vx va' va) _ O1) as [H1 H2]. fold K in H1, H2. lia.
  - pose proof (bigK_pos (vx va va') (vx va' va) _ O2) as [H1 H2]. fold K in H1, H2. lia.
Qed.
Lemma secs_fst v : NoDup (map fst (secs v)).
Proof.
  unfold secs. rewrite flat_map_concat_map, concat_map, map_map, <- flat_map_concat_map. apply NoDup_flat.
  - apply tris_nodup.
  - intros t _. destruct (sec t v); simpl; repeat constructor; intros [].
  - intros t u x It Iu H1 H2. destruct (sec t v) as [[a b]|] eqn:Q1; [|destruct H1]. destruct (sec u v) as [[a' b']|] eqn:Q2; [|destruct H2].
    destruct H1 as [<-|[]]. destruct H2 as [Q|[]]. cbn in Q. subst a'. eapply same_start; eauto.
Qed.
Lemma secs_snd v : NoDup (map snd (secs v)).
Proof.
  unfold secs. rewrite flat_map_concat_map, concat_map, map_map, <- flat_map_concat_map. apply NoDup_flat.
  - apply tris_nodup.
  - intros t _. destruct (sec t v); simpl; repeat constructor; intros [].
  - intros t u x It Iu H1 H2. destruct (sec t v) as [[a b]|] eqn:Q1; [|destruct H1]. destruct (sec u v) as [[a' b']|] eqn:Q2; [|destruct H2].
    destruct H1 as [<-|[]]. destruct H2 as [Q|[]]. cbn in Q. subst b'. eapply same_end; eauto.
Qed.

(** ** the order *)
Definition KK : Z := 2 * zsum (fun i => Z.abs (snd (z i))) n + 1.
Lemma snd_le i : (i < n)%nat -> Z.abs (snd (z i)) <= zsum (fun i => Z.abs (snd (z i))) n.
Proof.
  generalize n. intro m. induction m as [|m IH]; [lia|]. intro L. cbn [zsum].
  assert (0 <= zsum (fun i => Z.abs (snd (z i))) m) by (apply zsum_nonneg; intros; lia). destruct (Nat.eq_dec i m) as [->|N]; [lia|]. specialize (IH ltac:(lia)). lia.
Qed.
Definition LL (i : nat) : Z := ell KK (z i).
Lemma ell_xlt i j : (i < n)%nat -> (j < n)%nat -> LL i < LL j -> fst (z i) < fst (z j) \/ (fst (z i) = fst (z j) /\ snd (z i) < snd (z j)).
Proof.
  intros Li Lj H. unfold LL, ell in H. pose proof (snd_le i Li). pose proof (snd_le j Lj). assert (KK = 2 * zsum (fun i => Z.abs (snd (z i))) n + 1) by reflexivity.
  set (s := zsum _ n) in *. set (K := KK) in *. clearbody K s. nia.
Qed.
Lemma LL_ne i j : (i < n)%nat -> (j < n)%nat -> i <> j -> LL i <> LL j.
Proof.
  intros Li Lj N E. apply (GPd i j Li Lj N). unfold LL, ell in E. pose proof (snd_le i Li). pose proof (snd_le j Lj). assert (KK = 2 * zsum (fun i => Z.abs (snd (z i))) n + 1) by reflexivity.
  set (s := zsum _ n) in *. set (K := KK) in *. clearbody K s. destruct (z i) as [x y], (z j) as [x' y']. cbn [fst snd] in *. assert (x = x') by nia. f_equal; nia.
Qed.
Definition lpv (v x : nat) : Z := LL x - LL v.
Definition Xv (v a b : nat) : Z := orient (z v) (z a) (z b).
Lemma fan_at v : fan (Xv v) (lpv v) (secs v).
Proof.
  constructor.
  - intros a b. unfold Xv. zpts. ring.
  - intros a b c. unfold Xv, lpv, LL, ell. zpts. ring.
  - intros a b H. apply secs_in in H as (t & It & Q). destruct (sec_spec t v a b It Q) as ((L1 & L2 & L3) & O & N1 & N2 & N3 & _). split; [exact O|].
    pose proof (LL_ne v a L1 L2 N1). pose proof (LL_ne v b L1 L3 N2). unfold lpv. lia.
  - intros a b c d H1 H2 X1 X2. apply secs_in in H1 as (t & It & Q1), H2 as (u & Iu & Q2).
    destruct (sec_spec t v a b It Q1) as (_ & O1 & _). destruct (sec_spec u v c d Iu Q2) as (_ & O2 & _). unfold Xv in X1, X2. rewrite orient_vx in X1, X2, O1, O2.
    set (va := vsub (z a) (z v)) in *. set (vb := vsub (z b) (z v)) in *. set (vc := vsub (z c) (z v)) in *. set (vd := vsub (z d) (z v)) in *.
    set (K := bigK (vx va vd) (vx vd vb)).
    assert (E : t = u).
    { apply (common v a b c d t u (comb K vc vd)); auto; unfold dirin; fold va vb vc vd; rewrite !vx_comb_l, !vx_comb_r, ?vx_same.
      - pose proof (bigK_pos (vx va vd) (vx vd vb) _ X1) as [H1 H2]. pose proof (bigK_pos (vx va vd) (vx vd vb) _ X2) as [H3 H4]. fold K in H1, H2, H3, H4. lia.
      - assert (0 < K) by (unfold K, bigK; lia). nia. }
    subst u. rewrite Q1 in Q2. injection Q2 as -> ->. unfold va, vc in X1. rewrite vx_same in X1. lia.
  - intros a b c d H1 H2 X1 X2. apply secs_in in H1 as (t & It & Q1), H2 as (u & Iu & Q2).
    destruct (sec_spec t v a b It Q1) as (_ & O1 & _). destruct (sec_spec u v c d Iu Q2) as (_ & O2 & _). unfold Xv in X1, X2. rewrite orient_vx in X1, X2, O1, O2.
    set (va := vsub (z a) (z v)) in *. set (vb := vsub (z b) (z v)) in *. set (vc := vsub (z c) (z v)) in *. set (vd := vsub (z d) (z v)) in *.
    set (K := bigK (vx va vc) (vx vc vb)).
    assert (E : t = u).
    { apply (common v a b c d t u (comb K vd vc)); auto; unfold dirin; fold va vb vc vd; rewrite !vx_comb_l, !vx_comb_r, ?vx_same.
      - pose proof (bigK_pos (vx va vc) (vx vc vb) _ X1) as [H1 H2]. pose proof (bigK_pos (vx va vc) (vx vc vb) _ X2) as [H3 H4]. fold K in H1, H2, H3, H4. lia.
      - assert (0 < K) by (unfold K, bigK; lia). nia. }
    subst u. rewrite Q1 in Q2. injection Q2 as -> ->. unfold vb, vd in X2. rewrite vx_same in X2. lia.
  - apply secs_fst.
  - apply secs_snd.
  - intros a b c d H1 H2 A1 A2 B1 B2. apply secs_in in H1 as (t & It & Q1), H2 as (u & Iu & Q2).
    assert (E : t = u); [|subst u; congruence].
    apply (common v a b c d t u (-1, KK)); auto; unfold dirin, vx, vsub; cbn [fst snd]; unfold lpv, LL, ell in *; lia.
  - intros a b c d H1 H2 A1 A2 B1 B2. apply secs_in in H1 as (t & It & Q1), H2 as (u & Iu & Q2).
    assert (E : t = u); [|subst u; congruence].
    apply (common v a b c d t u (1, - KK)); auto; unfold dirin, vx, vsub; cbn [fst snd]; unfold lpv, LL, ell in *; lia.
Qed.
Definition mid (v : nat) : Z := mids (lpv v) (secs v).

(** every triangle is counted once *)
Lemma zsum_three (f : nat -> Z) m a b c : (a < m)%nat -> (b < m)%nat -> (c < m)%nat -> a <> b -> b <> c -> a <> c -> (forall v, v <> a -> v <> b -> v <> c -> f v = 0) ->
  zsum f m = f a + f b + f c.
Proof.
  intros La Lb Lc D1 D2 D3 H.
  rewrite (zsum_ext f (fun v => (if Nat.eqb v a then f a else 0) + ((if Nat.eqb v b then f b else 0) + (if Nat.eqb v c then f c else 0)))).
  - rewrite !zsum_add, !zsum_delta by assumption. lia.
  - intros v _. destruct (Nat.eqb_spec v a) as [E1|E1], (Nat.eqb_spec v b) as [E2|E2], (Nat.eqb_spec v c) as [E3|E3]; try congruence; rewrite ?E1, ?E2, ?E3; try lia. rewrite H; auto.
Qed.
Lemma mid_total : zsum mid n = Z.of_nat (length tris).
Proof.
  transitivity (zsum (fun v => zsuml (fun t => zsuml (chg (lpv v)) (o2l (sec t v))) tris) n).
  { apply zsum_ext. intros v _. unfold mid, mids, secs. apply zsuml_flat_map. }
  rewrite (zsum_zsuml (fun t v => zsuml (chg (lpv v)) (o2l (sec t v)))).
  rewrite (zsuml_ext _ (fun _ => 1)).
  - clear. induction tris as [|t l IH]; [reflexivity|]. cbn [zsuml fold_right length]. fold (zsuml (fun _ : nat * nat * nat => 1) l). lia.
  - intros [[a b] c] It. pose proof (TC a b c It) as ((La & Lb & Lc) & _). pose proof (corners_ne a b c It) as (D1 & D2 & D3).
    rewrite (zsum_three _ n a b c) by (auto; intros v N1 N2 N3; unfold sec; apply Nat.eqb_neq in N1, N2, N3; rewrite (Nat.eqb_sym a v), (Nat.eqb_sym b v), (Nat.eqb_sym c v), N1, N2, N3; reflexivity).
    pose proof (LL_ne a b La Lb D1). pose proof (LL_ne b c Lb Lc D2). pose proof (LL_ne a c La Lc D3).
    apply Nat.eqb_neq in D1, D2, D3. unfold sec. rewrite !Nat.eqb_refl, D1, D2, D3. cbn [o2l zsuml fold_right chg fst snd]. unfold chg, lpv. cbn [fst snd].
    destruct (Z.ltb_spec 0 (LL b - LL a)), (Z.ltb_spec 0 (LL c - LL a)), (Z.ltb_spec 0 (LL c - LL b)), (Z.ltb_spec 0 (LL a - LL b)), (Z.ltb_spec 0 (LL a - LL c)), (Z.ltb_spec 0 (LL b - LL c)); cbn [Bool.eqb]; lia.
Qed.

(** ** the triangles conform to the edges of disjoint polygons *)
Variable es : list (nat * nat).
Variable cs : list (list nat).
Hypothesis CE : forall x y, In (x, y) es -> exists i t, nth_error tris i = Some t /\ joins t x y /\ forall j u, nth_error tris j = Some u -> joins u x y -> j = i.
Hypothesis CI : forall i t x y, nth_error tris i = Some t -> In (x, y) (sides t) -> ~ In (x, y) es -> ~ In (y, x) es ->
  exists j u, nth_error tris j = Some u /\ In (y, x) (sides u) /\ j <> i /\ forall j' u', nth_error tris j' = Some u' -> joins u' x y -> j' = i \/ j' = j.
Hypothesis C3 : forall c, In c cs -> (3 <= length c)%nat.
Hypothesis CN : NoDup (concat cs).
Hypothesis CB : forall c v, In c cs -> In v c -> (v < n)%nat.
Hypothesis ES : forall x y, In (x, y) es <-> exists c, In c cs /\ In (x, y) (cyc c).
Hypothesis AP : forall e e', In e es -> In e' es ->
  ~ (orient (z (fst e)) (z (snd e)) (z (fst e')) * orient (z (fst e)) (z (snd e)) (z (snd e')) < 0 /\
     orient (z (fst e')) (z (snd e')) (z (fst e)) * orient (z (fst e')) (z (snd e')) (z (snd e)) < 0).

Lemma open_half x y : ~ In (x, y) es -> ~ In (y, x) es -> left x y -> left y x.
Proof.
  intros N1 N2 (t & It & Q). apply In_nth_error in It as [i It]. destruct (CI i t x y It Q N1 N2) as (j & u & Iu & Q' & _). exists u. split; auto. eapply nth_error_In; eauto.
Qed.
Lemma open_sides x y : ~ In (x, y) es -> ~ In (y, x) es -> (left x y <-> left y x).
Proof. intros N1 N2. split; apply open_half; assumption. Qed.
Lemma not_both t x y : In t tris -> In (x, y) (sides t) -> In (y, x) (sides t) -> False.
Proof.
  intros It H1 H2. destruct (side_sec t x y It H1) as [[b Q] _]. destruct (side_sec t y x It H2) as [_ [a Q']].
  destruct (sec_spec t x y b It Q) as (_ & _ & _ & _ & N & _). congruence.
Qed.
Lemma edge_sides x y : In (x, y) es -> (left x y /\ ~ left y x) \/ (left y x /\ ~ left x y).
Proof.
  intro H. destruct (CE x y H) as (i & t & It & [J|J] & U); [left|right]; pose proof (nth_error_In _ _ It) as I'.
  - split; [exists t; auto|]. intros (u & Iu & Q). apply In_nth_error in Iu as [j Iu]. assert (j = i) by (apply (U j u Iu); right; exact Q). subst j.
    assert (u = t) by congruence. subst u. eapply not_both; eauto.
  - split; [exists t; auto|]. intros (u & Iu & Q). apply In_nth_error in Iu as [j Iu]. assert (j = i) by (apply (U j u Iu); left; exact Q). subst j.
    assert (u = t) by congruence. subst u. eapply not_both; eauto.
Qed.
Lemma secs_ne v : secs v <> [] <-> exists t, In t tris /\ corner v t.
Proof.
  split.
  - intro H. destruct (secs v) as [|[a b] l] eqn:Q; [congruence|]. assert (I' : In (a, b) (secs v)) by (rewrite Q; simpl; auto). apply secs_in in I' as (t & It & Q').
    exists t. split; auto. destruct t as [[x y] w]. unfold sec in Q'. unfold corner. destruct (Nat.eqb_spec x v); auto. destruct (Nat.eqb_spec y v); auto. destruct (Nat.eqb_spec w v); auto. discriminate.
  - intros ([[x y] w] & It & Q) E.
    assert (X : exists a b, In (a, b) (secs v)); [|destruct X as (a & b & X); rewrite E in X; destruct X].
    assert (X : exists a b, sec (x, y, w) v = Some (a, b)).
    { unfold sec. unfold corner in Q. destruct (Nat.eqb_spec x v); eauto. destruct (Nat.eqb_spec y v); eauto. destruct (Nat.eqb_spec w v); eauto. exfalso. intuition congruence. }
    destruct X as (a & b & X). exists a, b. apply secs_in. eauto.
Qed.
Lemma spoke_lt v x : left v x \/ left x v -> (v < n /\ x < n)%nat /\ v <> x.
Proof.
  intros [(t & It & Q)|(t & It & Q)]; destruct (side_sec t _ _ It Q) as [[b S1] _]; destruct (sec_spec t _ _ _ It S1) as ((? & ? & ?) & _ & ? & _); auto.
Qed.
(** a vertex on no polygon *)
Lemma mid_loose v : (forall c, In c cs -> ~ In v c) -> mid v = (if existsb (fun t => match sec t v with Some _ => true | None => false end) tris then 2 else 0).
Proof.
  intro NV. unfold mid. destruct (secs v) as [|ab l] eqn:E.
  - destruct (existsb _ tris) eqn:Q; [|reflexivity]. exfalso. apply existsb_exists in Q as (t & It & Q). destruct (sec t v) as [[a b]|] eqn:S1; [|discriminate].
    assert (I' : In (a, b) (secs v)) by (apply secs_in; eauto). rewrite E in I'. destruct I'.
  - assert (NE : secs v <> []) by (rewrite E; discriminate). destruct ab as [a b]. assert (I' : In (a, b) (secs v)) by (rewrite E; simpl; auto). apply secs_in in I' as (t & It & Q).
    replace (existsb _ tris) with true by (symmetry; apply existsb_exists; exists t; split; auto; rewrite Q; reflexivity). rewrite <- E.
    apply (mids_inner (Xv v) _ _ (fan_at v) NE). intro x. rewrite st_left, en_left. apply open_sides; rewrite ES; intros (c & Ic & Q'); apply Stokes.cyc_in in Q' as [Q1 Q2]; apply (NV c Ic); auto.
Qed.
(** a vertex of a polygon *)
Definition turn (p v q : nat) : Z := half KK (vsub (z v) (z p)) (vsub (z q) (z v)).
Lemma mid_border v p q : In (p, v) es -> In (v, q) es -> p <> q -> (forall x, x <> p -> x <> q -> ~ In (v, x) es /\ ~ In (x, v) es) ->
  (left v q /\ left p v /\ mid v = 1 - turn p v q) \/ (left q v /\ left v p /\ mid v = 1 + turn p v q).
Proof.
  intros H1 H2 NPQ OTH. pose proof (fan_at v) as F.
  assert (GP : forall x y, In x (map fst (secs v)) \/ In x (map snd (secs v)) -> In y (map fst (secs v)) \/ In y (map snd (secs v)) -> Xv v x y = 0 -> x = y).
  { intros x y Hx Hy E0. rewrite st_left, en_left in Hx, Hy. apply spoke_lt in Hx as ((Lv & Lx) & Nx), Hy as ((_ & Ly) & Ny).
    destruct (Nat.eq_dec x y) as [|N]; auto. exfalso. apply (GPo v x y Lv Lx Ly Nx N Ny). exact E0. }
  assert (OT : forall x, x <> p -> x <> q -> (In x (map fst (secs v)) <-> In x (map snd (secs v)))).
  { intros x N1 N2. rewrite st_left, en_left. destruct (OTH x N1 N2). apply open_sides; assumption. }
  assert (LN : length (map fst (secs v)) = length (map snd (secs v))) by (rewrite !map_length; reflexivity).
  assert (TT : Xv v p q = - Xv v q p) by apply (fn_anti _ _ _ F).
  assert (TV : lpv v p <> 0 -> lpv v q <> 0 -> turn p v q = if Bool.eqb (0 <? lpv v q) (0 <? lpv v p) then Z.sgn (Xv v q p) else 0).
  { intros L1 L2. unfold turn, half. replace (vx (vsub (z v) (z p)) (vsub (z q) (z v))) with (Xv v q p) by (unfold Xv, vx, vsub; zpts; ring).
    replace (ell KK (vsub (z v) (z p))) with (- lpv v p) by (unfold lpv, LL, ell, vsub; cbn [fst snd]; ring). replace (ell KK (vsub (z q) (z v))) with (lpv v q) by (unfold lpv, LL, ell, vsub; cbn [fst snd]; ring).
    destruct (Z.ltb_spec 0 (lpv v q)), (Z.ltb_spec 0 (lpv v p)), (Z.ltb_spec 0 (- lpv v p)); cbn [Bool.eqb]; try lia. }
  destruct (edge_sides p v H1) as [[E1 N1]|[E1 N1]], (edge_sides v q H2) as [[E2 N2]|[E2 N2]].
  - left. split; auto. split; auto. apply st_left in E2. apply en_left in E1. rewrite <- st_left in N1. rewrite <- en_left in N2.
    assert (OT' : forall x, x <> q -> x <> p -> (In x (map fst (secs v)) <-> In x (map snd (secs v)))) by (intros; apply OT; auto).
    unfold mid. rewrite (mids_border (Xv v) (lpv v) (secs v) F q p E2 N2 E1 N1 OT' GP).
    destruct (lps (Xv v) (lpv v) (secs v) F q p E2 E1) as [L1 L2]. rewrite TV; auto.
  - exfalso. (* both end here *)
    apply en_left in E1, E2. rewrite <- st_left in N1, N2.
    assert (P : Permutation (p :: q :: map fst (secs v)) (map snd (secs v))).
    { apply NoDup_Permutation; [constructor; [simpl; intuition congruence|constructor; [exact N2|apply secs_fst]]|apply secs_snd|].
      intro x. destruct (Nat.eq_dec x p) as [->|A1]; [simpl; tauto|]. destruct (Nat.eq_dec x q) as [->|A2]; [simpl; tauto|]. rewrite <- (OT x A1 A2). simpl. intuition congruence. }
    apply Permutation_length in P. cbn [length] in P. lia.
  - exfalso. apply st_left in E1, E2. rewrite <- en_left in N1, N2.
    assert (P : Permutation (p :: q :: map snd (secs v)) (map fst (secs v))).
    { apply NoDup_Permutation; [constructor; [simpl; intuition congruence|constructor; [exact N2|apply secs_snd]]|apply secs_fst|].
      intro x. destruct (Nat.eq_dec x p) as [->|A1]; [simpl; tauto|]. destruct (Nat.eq_dec x q) as [->|A2]; [simpl; tauto|]. rewrite (OT x A1 A2). simpl. intuition congruence. }
    apply Permutation_length in P. cbn [length] in P. lia.
  - right. split; auto. split; auto. apply st_left in E1. apply en_left in E2. rewrite <- en_left in N1. rewrite <- st_left in N2.
    unfold mid. rewrite (mids_border (Xv v) (lpv v) (secs v) F p q E1 N1 E2 N2 OT GP).
    destruct (lps (Xv v) (lpv v) (secs v) F p q E1 E2) as [L1 L2]. rewrite TV, TT by auto. rewrite Z.sgn_opp.
    destruct (0 <? lpv v p), (0 <? lpv v q); cbn [Bool.eqb]; lia.
Qed.

(** ** the sum of [mid] around a polygon *)
Definition qat (c : list nat) (i : nat) : nat := nth i (c ++ [hd 0%nat c]) 0%nat.
Lemma qat_nth c i : (i < length c)%nat -> qat c i = nth i c 0%nat.
Proof. intro L. unfold qat. apply app_nth1. exact L. Qed.
Lemma qat_last c : qat c (length c) = hd 0%nat c.
Proof. unfold qat. rewrite app_nth2 by lia. rewrite Nat.sub_diag. reflexivity. Qed.
Lemma qat_hd c : (0 < length c)%nat -> qat c 0 = hd 0%nat c.
Proof. intro L. rewrite qat_nth by exact L. destruct c; reflexivity. Qed.
Lemma qat_cyc c i : (i < length c)%nat -> In (qat c i, qat c (S i)) (cyc c).
Proof.
  intro L. destruct (cyc_nth c i L) as (x & y & A1 & A2 & A3). apply nth_error_In in A3. rewrite (qat_nth c i L), (nth_error_nth _ _ _ A1).
  replace (qat c (S i)) with y; auto. destruct (Nat.eqb_spec (S i) (length c)) as [E|E].
  - rewrite E, qat_last. destruct c; [cbn in L; lia|]. cbn in A2. cbn. congruence.
  - rewrite qat_nth by lia. symmetry. apply nth_error_nth. exact A2.
Qed.
Lemma zsuml_qat (f : nat -> Z) c : zsuml f c = zsum (fun i => f (qat c i)) (length c).
Proof.
  rewrite (zsum_ext _ (fun i => f (nth i c 0%nat))) by (intros i L; rewrite qat_nth by exact L; reflexivity).
  clear. induction c as [|a c IH]; [reflexivity|]. cbn [length]. rewrite zsum_front. cbn [nth]. rewrite <- IH. reflexivity.
Qed.

Lemma zsum_const1 k : zsum (fun _ => 1) k = Z.of_nat k.
Proof. induction k; [reflexivity|]. cbn [zsum]. rewrite IHk. lia. Qed.

Section Ring.
Variable c : list nat.
Hypothesis L3 : (3 <= length c)%nat.
Hypothesis ND : NoDup c.
Hypothesis RB : forall v, In v c -> (v < n)%nat.
Hypothesis R1 : forall x y, In (x, y) (cyc c) -> In (x, y) es.
Hypothesis R2 : forall v x, In v c -> In (v, x) es -> In (v, x) (cyc c).
Hypothesis R3 : forall v x, In v c -> In (x, v) es -> In (x, v) (cyc c).
Notation m := (length c).
Notation q := (qat c).
Notation v0 := (hd 0%nat c).
Hypothesis MIN : forall v, In v c -> v <> v0 -> LL v0 < LL v.
Lemma q_in i : (i <= m)%nat -> In (q i) c.
Proof.
  intro L. destruct (Nat.eq_dec i m) as [->|N].
  - rewrite qat_last. destruct c; [cbn in L3; lia|]. left. reflexivity.
  - rewrite qat_nth by lia. apply nth_In. lia.
Qed.
Lemma q_inj i j : (i < m)%nat -> (j < m)%nat -> q i = q j -> i = j.
Proof. intros Li Lj. rewrite !qat_nth by assumption. apply NoDup_nth; assumption. Qed.
Lemma q_ne i j : (i < j)%nat -> (j <= m)%nat -> ~ (i = 0%nat /\ j = m) -> q i <> q j.
Proof.
  intros L1 L2 N E. destruct (Nat.eq_dec j m) as [->|NJ].
  - rewrite qat_last, <- qat_hd in E by lia. apply q_inj in E; lia.
  - apply q_inj in E; lia.
Qed.
Lemma at_ring p v w : In (p, v) (cyc c) -> In (v, w) (cyc c) ->
  (left v w /\ left p v /\ mid v = 1 - turn p v w) \/ (left w v /\ left v p /\ mid v = 1 + turn p v w).
Proof using All.
  intros H1 H2. destruct (Stokes.cyc_in _ _ _ H2) as [Iv _]. apply mid_border; auto.
  - intros <-. exact (cyc_no_back c v p ND L3 H2 H1).
  - intros x N1 N2. split; intro H.
    + apply R2 in H; auto. apply (cyc_succ c v w ND H2) in H. congruence.
    + apply R3 in H; auto. apply (cyc_pred c p v ND H1) in H. congruence.
Qed.
Lemma not_left_both x y : In (x, y) (cyc c) -> left x y -> left y x -> False.
Proof using All. intros H A B. destruct (edge_sides x y (R1 _ _ H)) as [[? ?]|[? ?]]; auto. Qed.
(** all the triangles along the polygon are on the same side *)
Lemma side_const : (forall i, (i < m)%nat -> left (q i) (q (S i))) \/ (forall i, (i < m)%nat -> left (q (S i)) (q i)).
Proof using All.
  destruct (edge_sides _ _ (R1 _ _ (qat_cyc c 0 ltac:(lia)))) as [[A _]|[A _]]; [left|right]; intros i; induction i as [|i IH]; auto; intro L;
  specialize (IH ltac:(lia)); destruct (at_ring _ _ _ (qat_cyc c i ltac:(lia)) (qat_cyc c (S i) L)) as [(B1 & B2 & _)|(B1 & B2 & _)]; auto; exfalso;
  [apply (not_left_both _ _ (qat_cyc c i ltac:(lia)) IH B2)|apply (not_left_both _ _ (qat_cyc c i ltac:(lia)) B2 IH)].
Qed.
Lemma ring_hopf : turns KK (fun i => z (q i)) (m - 1) = turn (q (m - 1)) v0 (q 1).
Proof using All.
  assert (QL : q m = q 0%nat) by (rewrite qat_last, qat_hd by lia; reflexivity).
  pose proof (hopf KK m (fun i => z (q i)) L3) as H.
  assert (H' : turns KK (fun i => z (q i)) (m - 1) + half KK (chd (fun i => z (q i)) (m - 1) m) (chd (fun i => z (q i)) 0 1) = 2 * half KK (chd (fun i => z (q i)) (m - 1) m) (chd (fun i => z (q i)) 0 1)).
  { apply H.
    - cbv beta. rewrite QL. reflexivity.
    - intros i j k L1 L2 L4. apply GPo; try (apply RB, q_in; lia); apply q_ne; lia.
    - intros i j L1 L2. apply (LL_ne (q i) (q j)); try (apply RB, q_in; lia). apply q_ne; lia.
    - intros i L1 L2. cbv beta. rewrite (qat_hd c) by lia. apply (MIN (q i)); [apply q_in; lia|]. rewrite <- qat_hd by lia. intro E. apply q_inj in E; lia.
    - intros i j L1 L2 _. cbv beta. apply (AP (q i, q (S i)) (q j, q (S j))); apply R1, qat_cyc; lia. }
  unfold turn. unfold chd in H'. cbv beta in H'. rewrite QL, (qat_hd c) in H' by lia. lia.
Qed.
Lemma ring_mid : zsuml mid c = Z.of_nat m + 2 * (mid v0 - 1).
Proof using All.
  assert (QL : q m = q 0%nat) by (rewrite qat_last, qat_hd by lia; reflexivity).
  assert (Q0 : q 0%nat = v0) by (apply qat_hd; lia).
  assert (E0 : In (q (m - 1)%nat, v0) (cyc c)).
  { pose proof (qat_cyc c (m - 1) ltac:(lia)) as X. replace (S (m - 1)) with m in X by lia. rewrite QL, Q0 in X. exact X. }
  assert (E1 : In (v0, q 1%nat) (cyc c)) by (rewrite <- Q0; apply qat_cyc; lia).
  rewrite zsuml_qat. destruct (length c) as [|m'] eqn:LM; [lia|]. rewrite zsum_front, Q0. rewrite <- LM in *.
  assert (TT : turns KK (fun i => z (q i)) m' = zsum (fun i => turn (q i) (q (S i)) (q (S (S i)))) m') by reflexivity.
  pose proof ring_hopf as RH. replace (m - 1)%nat with m' in * by lia. rewrite TT in RH. clear TT.
  destruct side_const as [SC|SC].
  - assert (X : forall i, (i < m')%nat -> mid (q (S i)) = 1 - turn (q i) (q (S i)) (q (S (S i)))).
    { intros i L. destruct (at_ring _ _ _ (qat_cyc c i ltac:(lia)) (qat_cyc c (S i) ltac:(lia))) as [(_ & _ & E)|(_ & E & _)]; auto.
      exfalso. apply (not_left_both _ _ (qat_cyc c i ltac:(lia)) (SC i ltac:(lia)) E). }
    assert (X0 : mid v0 = 1 - turn (q m') v0 (q 1%nat)).
    { destruct (at_ring _ _ _ E0 E1) as [(_ & _ & E)|(_ & E & _)]; auto. exfalso. apply (not_left_both _ _ E0); auto. pose proof (SC m' ltac:(lia)) as Y. replace (S m') with m in Y by lia. rewrite QL, Q0 in Y. exact Y. }
    rewrite (zsum_ext _ (fun i => 1 + (-1) * turn (q i) (q (S i)) (q (S (S i))))) by (intros i L; rewrite X by exact L; ring).
    rewrite zsum_add, zsum_mul, RH, X0. rewrite zsum_const1. lia.
  - assert (X : forall i, (i < m')%nat -> mid (q (S i)) = 1 + turn (q i) (q (S i)) (q (S (S i)))).
    { intros i L. destruct (at_ring _ _ _ (qat_cyc c i ltac:(lia)) (qat_cyc c (S i) ltac:(lia))) as [(_ & E & _)|(_ & _ & E)]; auto.
      exfalso. apply (not_left_both _ _ (qat_cyc c i ltac:(lia)) E (SC i ltac:(lia))). }
    assert (X0 : mid v0 = 1 + turn (q m') v0 (q 1%nat)).
    { destruct (at_ring _ _ _ E0 E1) as [(_ & E & _)|(_ & _ & E)]; auto. exfalso. apply (not_left_both _ _ E0); auto. pose proof (SC m' ltac:(lia)) as Y. replace (S m') with m in Y by lia. rewrite QL, Q0 in Y. exact Y. }
    rewrite (zsum_ext _ (fun i => 1 + turn (q i) (q (S i)) (q (S (S i))))) by (intros i L; apply X; exact L).
    rewrite zsum_add, RH, X0. rewrite zsum_const1. lia.
Qed.
(** the first vertex: a turn of half a circle one way or the other *)
Lemma first_turn : exists p w, In (p, v0) (cyc c) /\ In (v0, w) (cyc c) /\ LL v0 < LL p /\ LL v0 < LL w /\ p <> w /\
  ((left v0 w /\ left p v0 /\ mid v0 = 1 - Z.sgn (orient (z v0) (z w) (z p))) \/ (left w v0 /\ left v0 p /\ mid v0 = 1 - Z.sgn (orient (z v0) (z p) (z w)))).
Proof using All.
  assert (QL : q m = q 0%nat) by (rewrite qat_last, qat_hd by lia; reflexivity).
  assert (Q0 : q 0%nat = v0) by (apply qat_hd; lia).
  assert (E0 : In (q (m - 1)%nat, v0) (cyc c)).
  { pose proof (qat_cyc c (m - 1) ltac:(lia)) as X. replace (S (m - 1)) with m in X by lia. rewrite QL, Q0 in X. exact X. }
  assert (E1 : In (v0, q 1%nat) (cyc c)) by (rewrite <- Q0; apply qat_cyc; lia).
  exists (q (m - 1)%nat), (q 1%nat). split; auto. split; auto.
  assert (P1 : LL v0 < LL (q (m - 1)%nat)) by (apply MIN; [apply q_in; lia|apply (cyc_ne c _ _ ND L3 E0)]).
  assert (P2 : LL v0 < LL (q 1%nat)) by (apply MIN; [apply q_in; lia|intro E; apply (cyc_ne c _ _ ND L3 E1); auto]).
  split; auto. split; auto. split; [apply not_eq_sym, q_ne; lia|].
  assert (TV : turn (q (m - 1)%nat) v0 (q 1%nat) = Z.sgn (orient (z v0) (z (q 1%nat)) (z (q (m - 1)%nat)))).
  { unfold turn. rewrite half_diff.
    - f_equal. unfold vx, vsub. zpts. ring.
    - unfold LL in P1. unfold ell in *. unfold vsub. cbn [fst snd]. lia.
    - unfold LL in P2. unfold ell in *. unfold vsub. cbn [fst snd]. lia. }
  destruct (at_ring _ _ _ E0 E1) as [(A & B & E)|(A & B & E)]; [left|right]; split; auto; split; auto; rewrite E, TV; auto.
  rewrite (orient_swap' (z v0) (z (q 1%nat))), Z.sgn_opp. lia.
Qed.
End Ring.
End C.
