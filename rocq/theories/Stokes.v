(** * Stokes: weighted sums of triangles, and the closed polygons that bound them *)
From Coq Require Import List Arith Bool Lia ZArith Permutation.
From Verif Require Import Base Num Shape ShapeSpec Utils Points Triangles Front Sweeper Monad Lists Exact FrontSpec Geom Mesh Rotate Setup Legal Boundary Winding Cover Disc.
Import ListNotations.
Local Open Scope Z_scope.

Lemma zsum_swap (f : nat -> nat -> Z) n m : zsum (fun u => zsum (fun v => f u v) m) n = zsum (fun v => zsum (fun u => f u v) n) m.
Proof.
  induction n as [|n IH]; simpl; [symmetry; apply zsum_zero; auto|].
  rewrite IH. rewrite <- (zsum_add (fun v => zsum (fun u => f u v) n) (fun v => f n v)). reflexivity.
Qed.
Lemma zsum_one f n x : (x < n)%nat -> (forall v, (v < n)%nat -> v <> x -> f v = 0) -> zsum f n = f x.
Proof.
  intros L H. rewrite (zsum_change (fun _ => 0) f n x L) by auto. rewrite zsum_zero by auto. lia.
Qed.

(** the boundary of the sum of om(t) times triangle t *)
Definition combo (ts : TriangleStore) (om : nat -> Z) : flow := fun e => zsum (fun a => om a * tri_flow ts a e) (length ts).
Lemma combo_anti ts om : antisym (combo ts om).
Proof.
  intros u v. unfold combo. rewrite (zsum_ext _ (fun a => -1 * (om a * tri_flow ts a (u, v)))) by (intros; rewrite (tri_anti ts _ u v); lia).
  rewrite (zsum_mul (-1) (fun a => om a * tri_flow ts a (u, v))). lia.
Qed.
Lemma combo_balance N zc ts om u : mesh N zc ts -> balance N (combo ts om) u = 0.
Proof.
  intro M. unfold balance, combo. rewrite (zsum_swap (fun v a => om a * tri_flow ts a (u, v))). apply zsum_zero. intros a La.
  rewrite (zsum_mul (om a) (fun v => tri_flow ts a (u, v))). pose proof (tri_balance N zc ts a u M La) as X. unfold balance in X. lia.
Qed.
Lemma combo_on ts om : on_edges ts (combo ts om).
Proof.
  intros e H. unfold combo in H.
  assert (X : forall n, zsum (fun a => om a * tri_flow ts a e) n <> 0 -> exists a, (a < n)%nat /\ tri_flow ts a e <> 0).
  { induction n as [|n IH]; simpl; [lia|]. intro Q. destruct (Z.eq_dec (tri_flow ts n e) 0) as [Q'|Q']; [|exists n; auto with arith].
    destruct IH as (a & L & Qa); [rewrite Q' in Q; lia|]. exists a. auto with arith. }
  apply X in H as (a & La & H). apply tri_on in H as [i [->| ->]]; exists (a, i); (split; [exact La|]); [left; reflexivity|right].
  unfold swp. destruct (pedge ts (a, i)); reflexivity.
Qed.
Lemma combo_bounds N zc ts om : mesh N zc ts -> unique ts -> bounds ts (combo ts om) om.
Proof.
  intros M U P LP. unfold combo. split.
  - intro H. rewrite (zsum_one _ _ (fst P) LP).
    + destruct (tri_bounds N zc ts (fst P) M U LP P LP) as [B _]. rewrite (B H), Nat.eqb_refl. lia.
    + intros a La Ne. destruct (tri_bounds N zc ts a M U La P LP) as [B _]. rewrite (B H). destruct (Nat.eqb_spec (fst P) a); [congruence|lia].
  - intros Q PQ.
    assert (Nab : fst P <> fst Q).
    { intro H. destruct PQ as (_ & _ & _ & _ & OP). rewrite <- H in OP. eapply not_self; [|exact OP]. apply (m_ccw M). auto. }
    assert (LQ : (fst Q < length ts)%nat) by apply PQ.
    rewrite (zsum_ext _ (fun a => om a * ((if Nat.eqb (fst P) a then 1 else 0) - (if Nat.eqb (fst Q) a then 1 else 0)))).
    + rewrite (zsum_two _ _ (fst P) (fst Q) LP LQ Nab).
      * rewrite !Nat.eqb_refl. destruct (Nat.eqb_spec (fst Q) (fst P)); [congruence|]. destruct (Nat.eqb_spec (fst P) (fst Q)); [congruence|]. lia.
      * intros v N1 N2. destruct (Nat.eqb_spec (fst P) v); [congruence|]. destruct (Nat.eqb_spec (fst Q) v); [congruence|]. lia.
    + intros a La. destruct (tri_bounds N zc ts a M U La P LP) as [_ B]. rewrite (B Q PQ). reflexivity.
Qed.
(** a flow on the edges that bounds om is that boundary *)
Lemma flow_is_combo N zc ts w om : mesh N zc ts -> unique ts -> antisym w -> on_edges ts w -> bounds ts w om -> forall e, w e = combo ts om e.
Proof.
  intros M U A1 ON B.
  assert (X : forall P, (fst P < length ts)%nat -> w (pedge ts P) = combo ts om (pedge ts P)).
  { intros P LP. destruct (B P LP) as [B1 B2]. destruct (combo_bounds N zc ts om M U P LP) as [C1 C2].
    destruct (ptn ts P) as [b|] eqn:H; [|rewrite B1, C1; auto]. destruct (m_adj M (fst P) (snd P) b LP H) as [j PR].
    change (ppaired ts P (b, j)) in PR. rewrite (B2 _ PR), (C2 _ PR). reflexivity. }
  assert (Y : forall e, is_edge ts e -> w e = combo ts om e).
  { intros [u v] (P & LP & [H|H]); [rewrite <- H; auto|]. pose proof (X P LP) as Q. rewrite H in Q. unfold swp in Q. cbn [fst snd] in Q.
    rewrite (A1 u v), (combo_anti ts om u v) in Q. lia. }
  intro e. destruct (Z.eq_dec (w e) 0) as [H|H]; [|apply Y, ON, H].
  destruct (Z.eq_dec (combo ts om e) 0) as [H'|H']; [lia|]. apply Y, (combo_on ts om), H'.
Qed.

(** ** pairing a flow with a function on directed edges *)
Section Pairing.
Variable N : nat.
Variable g : nat * nat -> Z.
Hypothesis GA : forall u v, g (v, u) = - g (u, v).
Definition pairing (w : flow) : Z := zsum (fun u => zsum (fun v => w (u, v) * g (u, v)) N) N.
Lemma pairing_ext w w' : (forall e, w e = w' e) -> pairing w = pairing w'.
Proof. intro H. apply zsum_ext. intros u _. apply zsum_ext. intros v _. rewrite H. reflexivity. Qed.
Lemma pairing_add w w' : pairing (fun e => w e + w' e) = pairing w + pairing w'.
Proof.
  unfold pairing. rewrite <- (zsum_add (fun u => zsum (fun v => w (u, v) * g (u, v)) N)). apply zsum_ext. intros u _.
  rewrite <- (zsum_add (fun v => w (u, v) * g (u, v))). apply zsum_ext. intros v _. lia.
Qed.
Lemma pairing_mul k w : pairing (fun e => k * w e) = k * pairing w.
Proof.
  unfold pairing. rewrite <- (zsum_mul k (fun u => zsum (fun v => w (u, v) * g (u, v)) N)). apply zsum_ext. intros u _.
  rewrite <- (zsum_mul k (fun v => w (u, v) * g (u, v))). apply zsum_ext. intros v _. lia.
Qed.
Lemma pairing_zero w : (forall e, w e = 0) -> pairing w = 0.
Proof. intro H. apply zsum_zero. intros u _. apply zsum_zero. intros v _. rewrite H. lia. Qed.
Lemma pairing_eqe x y : (x < N)%nat -> (y < N)%nat -> pairing (fun e => eqe (x, y) e) = g (x, y).
Proof.
  intros Lx Ly. unfold pairing. rewrite (zsum_one _ _ x Lx).
  - rewrite (zsum_one _ _ y Ly).
    + unfold eqe. cbn [fst snd]. rewrite !Nat.eqb_refl. cbn [andb]. lia.
    + intros v _ Ne. unfold eqe. cbn [fst snd]. destruct (Nat.eqb_spec y v); [congruence|]. rewrite andb_false_r. lia.
  - intros u _ Ne. apply zsum_zero. intros v _. unfold eqe. cbn [fst snd]. destruct (Nat.eqb_spec x u); [congruence|]. cbn [andb]. lia.
Qed.
Lemma pairing_one x y : (x < N)%nat -> (y < N)%nat -> pairing (one_edge (x, y)) = 2 * g (x, y).
Proof.
  intros Lx Ly. rewrite (pairing_ext _ (fun e => eqe (x, y) e + -1 * eqe (y, x) e)) by (intro e; unfold one_edge, swp; cbn [fst snd]; lia).
  rewrite (pairing_add (fun e => eqe (x, y) e) (fun e => -1 * eqe (y, x) e)), (pairing_mul (-1) (fun e => eqe (y, x) e)), !pairing_eqe by auto. rewrite (GA x y). lia.
Qed.
(** the sum of g over the boundary of a triangle *)
Definition gtri (ts : TriangleStore) (a : nat) : Z := g (pedge ts (a, I0)) + g (pedge ts (a, I1)) + g (pedge ts (a, I2)).
Lemma pairing_tri zc ts a : mesh N zc ts -> (a < length ts)%nat -> pairing (tri_flow ts a) = 2 * gtri ts a.
Proof.
  intros M La. assert (R : forall i, (tv ts a i < N)%nat) by (intro; apply (m_range M); auto).
  rewrite (pairing_ext _ (fun e => one_edge (pedge ts (a, I0)) e + one_edge (pedge ts (a, I1)) e + one_edge (pedge ts (a, I2)) e)) by reflexivity.
  rewrite (pairing_add (fun e => one_edge (pedge ts (a, I0)) e + one_edge (pedge ts (a, I1)) e)), (pairing_add (one_edge (pedge ts (a, I0)))).
  unfold gtri, pedge. cbn [fst snd nxt prv].
  rewrite (pairing_one _ _ (R I1) (R I2)), (pairing_one _ _ (R I2) (R I0)), (pairing_one _ _ (R I0) (R I1)). lia.
Qed.
Lemma pairing_zsum (f : nat -> flow) n : pairing (fun e => zsum (fun a => f a e) n) = zsum (fun a => pairing (f a)) n.
Proof.
  induction n as [|n IH]; simpl; [apply pairing_zero; auto|]. rewrite <- IH. apply (pairing_add (fun e => zsum (fun a => f a e) n) (f n)).
Qed.
Lemma pairing_combo zc ts om : mesh N zc ts -> pairing (combo ts om) = 2 * zsum (fun a => om a * gtri ts a) (length ts).
Proof.
  intro M. unfold combo. rewrite (pairing_zsum (fun a e => om a * tri_flow ts a e)). rewrite <- zsum_mul. apply zsum_ext. intros a La.
  rewrite (pairing_mul (om a) (tri_flow ts a)), (pairing_tri zc) by auto. lia.
Qed.
End Pairing.

(** ** closed polygons *)
Definition cyc {X} (l : list X) : list (X * X) := match l with [] => [] | a :: l' => combine l (l' ++ [a]) end.
Lemma combine_fst {X Y} (l : list X) (l' : list Y) : length l = length l' -> map fst (combine l l') = l.
Proof. revert l'. induction l as [|x l IH]; intros [|y l'] H; simpl in *; try discriminate; auto. f_equal. apply IH. lia. Qed.
Lemma combine_snd {X Y} (l : list X) (l' : list Y) : length l = length l' -> map snd (combine l l') = l'.
Proof. revert l'. induction l as [|x l IH]; intros [|y l'] H; simpl in *; try discriminate; auto. f_equal. apply IH. lia. Qed.
Lemma cyc_fst {X} (l : list X) : map fst (cyc l) = l.
Proof. destruct l as [|a l]; auto. unfold cyc. apply combine_fst. rewrite app_length. simpl. lia. Qed.
Lemma cyc_snd {X} (l : list X) : Permutation (map snd (cyc l)) l.
Proof.
  destruct l as [|a l]; auto. unfold cyc. rewrite combine_snd by (rewrite app_length; simpl; lia). symmetry. apply Permutation_cons_append.
Qed.
Lemma cyc_in {X} (l : list X) x y : In (x, y) (cyc l) -> In x l /\ In y l.
Proof.
  intro H. split.
  - rewrite <- (cyc_fst l). apply (in_map fst _ _ H).
  - eapply Permutation_in; [apply cyc_snd|]. apply (in_map snd _ _ H).
Qed.
Lemma cyc_map {X Y} (f : X -> Y) l : cyc (map f l) = map (fun e => (f (fst e), f (snd e))) (cyc l).
Proof.
  destruct l as [|a l]; auto. unfold cyc. cbn [map]. change (f a :: map f l) with (map f (a :: l)).
  replace (map f l ++ [f a]) with (map f (l ++ [a])) by (rewrite map_app; reflexivity).
  generalize (a :: l) (l ++ [a]). induction l0 as [|x l0 IH]; intros [|y l1]; simpl; auto. f_equal. apply IH.
Qed.
Lemma cyc_len {X} (l : list X) : length (cyc l) = length l.
Proof. destruct l as [|a l]; auto. unfold cyc. rewrite combine_length, app_length. cbn [length]. rewrite Nat.add_1_r. apply Nat.min_id. Qed.
Lemma cyc_nth {X} (l : list X) k : (k < length l)%nat -> exists x y, nth_error l k = Some x /\
  nth_error l (if Nat.eqb (S k) (length l) then 0 else S k) = Some y /\ nth_error (cyc l) k = Some (x, y).
Proof.
  intro L. destruct l as [|a l]; [simpl in L; lia|].
  assert (Lc : (k < length (cyc (a :: l)))%nat) by (rewrite cyc_len; auto).
  destruct (nth_error_ex _ _ Lc) as [[x y] Q]. exists x, y.
  assert (F : nth_error (map fst (cyc (a :: l))) k = Some x) by (rewrite nth_error_map, Q; reflexivity). rewrite cyc_fst in F.
  assert (S' : nth_error (map snd (cyc (a :: l))) k = Some y) by (rewrite nth_error_map, Q; reflexivity).
  unfold cyc in S'. rewrite combine_snd in S' by (rewrite app_length; simpl; lia).
  split; auto. split; auto. cbn [length]. destruct (Nat.eqb_spec (S k) (S (length l))) as [E|Ne].
  - rewrite nth_error_app2 in S' by lia. replace (k - length l)%nat with 0%nat in S' by lia. exact S'.
  - simpl in L. rewrite nth_error_app1 in S' by lia. exact S'.
Qed.
Lemma cyc_succ {X} (l : list X) x y : NoDup l -> In (x, y) (cyc l) -> forall y', In (x, y') (cyc l) -> y' = y.
Proof.
  intros ND H y' H'. rewrite <- (cyc_fst l) in ND. apply In_nth_error in H as [k H], H' as [k' H'].
  assert (k = k').
  { apply (proj1 (NoDup_nth_error (map fst (cyc l))) ND).
    - rewrite map_length. eapply nth_error_lt; eauto.
    - rewrite !nth_error_map, H, H'. reflexivity. }
  subst k'. congruence.
Qed.
Lemma cyc_pred {X} (l : list X) x y : NoDup l -> In (x, y) (cyc l) -> forall x', In (x', y) (cyc l) -> x' = x.
Proof.
  intros ND H x' H'. assert (ND' : NoDup (map snd (cyc l))) by (eapply Permutation_NoDup; [symmetry; apply cyc_snd|auto]).
  apply In_nth_error in H as [k H], H' as [k' H'].
  assert (k = k').
  { apply (proj1 (NoDup_nth_error (map snd (cyc l))) ND').
    - rewrite map_length. eapply nth_error_lt; eauto.
    - rewrite !nth_error_map, H, H'. reflexivity. }
  subst k'. congruence.
Qed.
Lemma cyc_no_back {X} (l : list X) x y : NoDup l -> (3 <= length l)%nat -> In (x, y) (cyc l) -> ~ In (y, x) (cyc l).
Proof.
  intros ND L3 H H'. apply In_nth_error in H as [k H], H' as [k' H'].
  assert (Lk : (k < length l)%nat) by (rewrite <- cyc_len; eapply nth_error_lt; eauto).
  assert (Lk' : (k' < length l)%nat) by (rewrite <- cyc_len; eapply nth_error_lt; eauto).
  destruct (cyc_nth l k Lk) as (x1 & y1 & A1 & A2 & A3). destruct (cyc_nth l k' Lk') as (x2 & y2 & B1 & B2 & B3).
  rewrite H in A3. injection A3 as <- <-. rewrite H' in B3. injection B3 as <- <-.
  assert (I' : forall i j z, nth_error l i = Some z -> nth_error l j = Some z -> i = j).
  { intros i j z Hi Hj. apply (proj1 (NoDup_nth_error l) ND); [eapply nth_error_lt; eauto|congruence]. }
  pose proof (I' _ _ _ A2 B1) as E1. pose proof (I' _ _ _ B2 A1) as E2.
  destruct (Nat.eqb_spec (S k) (length l)), (Nat.eqb_spec (S k') (length l)); lia.
Qed.
Lemma cyc_ne {X} (l : list X) x y : NoDup l -> (3 <= length l)%nat -> In (x, y) (cyc l) -> x <> y.
Proof. intros ND L H ->. apply (cyc_no_back l y y ND L H H). Qed.

(** the flow around a closed polygon *)
Definition kap (l : list nat) : flow := fun e => zsuml (fun f => one_edge f e) (cyc l).
Lemma kap_anti l : antisym (kap l).
Proof. intros u v. unfold kap. rewrite <- zsuml_opp. apply zsuml_ext. intros f _. apply one_anti. Qed.
Lemma zsum_zsuml {X} (f : X -> nat -> Z) (l : list X) n : zsum (fun v => zsuml (fun x => f x v) l) n = zsuml (fun x => zsum (f x) n) l.
Proof.
  induction l as [|x l IH]; simpl; [apply zsum_zero; auto|]. rewrite <- IH. apply (zsum_add (f x) (fun v => zsuml (fun x => f x v) l)).
Qed.
Lemma zsuml_sub {X} (f g : X -> Z) l : zsuml (fun x => f x - g x) l = zsuml f l - zsuml g l.
Proof. induction l as [|x l IH]; simpl; lia. Qed.
Lemma kap_balance N l u : (forall v, In v l -> (v < N)%nat) -> balance N (kap l) u = 0.
Proof.
  intro H. unfold balance, kap. rewrite (zsum_zsuml (fun f v => one_edge f (u, v))).
  rewrite (zsuml_ext _ (fun f => ind (Nat.eqb u (fst f)) - ind (Nat.eqb u (snd f)))).
  - rewrite zsuml_sub, <- (zsuml_map (fun x => ind (Nat.eqb u x)) fst), <- (zsuml_map (fun x => ind (Nat.eqb u x)) snd), cyc_fst, (zsuml_perm _ _ _ (cyc_snd l)). lia.
  - intros [x y] I'. apply cyc_in in I' as [I1 I2]. apply (one_balance N x y u); auto.
Qed.
Lemma kap_at l e : kap l e <> 0 -> In e (cyc l) \/ In (swp e) (cyc l).
Proof.
  unfold kap. induction (cyc l) as [|f c IH]; simpl; [lia|]. intro H.
  destruct (Z.eq_dec (one_edge f e) 0) as [Q|Q]; [destruct IH; [lia|auto|auto]|].
  apply one_at in Q as [->| ->]; [auto|]. right. left. unfold swp. destruct f; reflexivity.
Qed.
Lemma kap_in l e : NoDup l -> (3 <= length l)%nat -> In e (cyc l) -> kap l e = 1.
Proof.
  intros ND L3 H. unfold kap, one_edge. rewrite zsuml_sub.
  assert (Z0 : zsuml (fun f => eqe (swp f) e) (cyc l) = 0).
  { rewrite (zsuml_ext _ (fun _ => 0)); [clear; induction (cyc l); simpl; auto|]. intros [x y] I'. destruct (eqe_spec (swp (x, y)) e) as [[Q _]|[_ ->]]; auto.
    exfalso. unfold swp in Q. cbn [fst snd] in Q. subst e. apply (cyc_no_back l x y ND L3 I' H). }
  rewrite Z0. assert (NC : NoDup (cyc l)) by (apply (NoDup_map_inv fst); rewrite cyc_fst; auto).
  clear Z0 ND L3. revert H NC. induction (cyc l) as [|f c IH]; intros H NC; [contradiction|]. inversion NC as [|? ? Nf NC']; subst. simpl.
  destruct H as [->|H].
  - destruct (eqe_spec e e) as [[_ ->]|[Q _]]; [|congruence].
    assert (X : zsuml (fun x => eqe x e) c = 0).
    { rewrite (zsuml_ext _ (fun _ => 0)); [clear; induction c; simpl; auto|]. intros x I'. destruct (eqe_spec x e) as [[-> _]|[_ ->]]; auto. contradiction. }
    rewrite X. lia.
  - destruct (eqe_spec f e) as [[-> _]|[_ ->]]; [contradiction|]. specialize (IH H NC'). lia.
Qed.
Lemma pairing_kap N g l : (forall u v, g (v, u) = - g (u, v)) -> (forall v, In v l -> (v < N)%nat) -> pairing N g (kap l) = 2 * zsuml g (cyc l).
Proof.
  intros GA H. unfold kap. assert (K : forall e, In e (cyc l) -> (fst e < N)%nat /\ (snd e < N)%nat) by (intros [x y] I'; apply cyc_in in I' as [I1 I2]; auto).
  induction (cyc l) as [|f c IH]; [apply pairing_zero; auto|]. cbn [zsuml fold_right]. fold (zsuml g c).
  rewrite (pairing_ext N g _ (fun e => one_edge f e + zsuml (fun f => one_edge f e) c)) by reflexivity.
  rewrite (pairing_add N g (one_edge f)), IH by (intros; apply K; simpl; auto).
  destruct f as [x y]. destruct (K (x, y) (or_introl eq_refl)) as [K1 K2]. rewrite (pairing_one N g GA x y K1 K2). lia.
Qed.

(** a balanced flow on the edges of disjoint closed polygons is constant along each of them *)
Lemma constant_along N (D : flow) (cs : list (list nat)) c : antisym D -> (forall u, balance N D u = 0) ->
  (forall e, D e <> 0 -> exists c, In c cs /\ (In e (cyc c) \/ In (swp e) (cyc c))) ->
  NoDup (concat cs) -> (forall c, In c cs -> (3 <= length c)%nat) -> (forall c v, In c cs -> In v c -> (v < N)%nat) -> In c cs ->
  exists z, forall e, In e (cyc c) -> D e = z.
Proof.
  intros A1 BAL SUP ND L3 RG IC.
  assert (OWN : forall c', In c' cs -> forall v, In v c -> In v c' -> c' = c).
  { intros c' IC' v I1 I2. clear - ND IC IC' I1 I2. induction cs as [|d cs IH]; [contradiction|]. simpl in ND. 
    assert (NA : forall a b : list nat, NoDup (a ++ b) -> NoDup b /\ forall x, In x a -> ~ In x b).
    { clear. induction a as [|x a IH]; simpl; intros b H; [auto|]. inversion H as [|? ? Nx H']; subst. destruct (IH _ H') as [H1 H2]. split; auto.
      intros y [->|Iy]; auto. intro Ib. apply Nx, in_or_app. auto. }
    destruct (NA _ _ ND) as [N1 N2]. destruct IC as [->|IC], IC' as [->|IC']; auto.
    - exfalso. apply (N2 v I1). apply in_concat. eauto.
    - exfalso. apply (N2 v I2). apply in_concat. eauto. }
  assert (NDc : NoDup c).
  { clear - ND IC. induction cs as [|d cs IH]; [contradiction|]. simpl in ND. destruct IC as [->|IC]; [|apply IH; auto].
    - clear - ND. induction c as [|x c IH]; [constructor|]. inversion ND as [|? ? Nx ND']; subst. constructor; auto. intro Q. apply Nx, in_or_app. auto.
    - clear - ND. induction d as [|x d IH]; auto. inversion ND; auto. }
  assert (STEP : forall x y z, In (x, y) (cyc c) -> In (y, z) (cyc c) -> D (y, z) = D (x, y)).
  { intros x y z H1 H2. destruct (cyc_in c x y H1) as [Ix Iy]. destruct (cyc_in c y z H2) as [_ Iz].
    assert (Nxz : x <> z). { intros ->. apply (cyc_no_back c z y NDc (L3 c IC) H1 H2). }
    pose proof (BAL y) as Q. unfold balance in Q. rewrite (zsum_two (fun v => D (y, v)) N x z) in Q.
    - rewrite (A1 x y) in Q. lia.
    - apply (RG c); auto.
    - apply (RG c); auto.
    - auto.
    - intros v Nx Nz. destruct (Z.eq_dec (D (y, v)) 0) as [|H]; auto. exfalso. destruct (SUP _ H) as (c' & IC' & HC).
      assert (c' = c). { apply (OWN c' IC' y Iy). destruct HC as [HC|HC]; unfold swp in HC; cbn [fst snd] in HC; apply cyc_in in HC; tauto. }
      subst c'. destruct HC as [HC|HC]; unfold swp in HC; cbn [fst snd] in HC.
      + apply Nz. apply (cyc_succ c y z NDc H2 v HC).
      + apply Nx. apply (cyc_pred c x y NDc H1 v HC). }
  assert (L : (3 <= length c)%nat) by auto.
  destruct (cyc_nth c 0 ltac:(lia)) as (x0 & y0 & A2 & A3 & A4).
  exists (D (x0, y0)). intros e He. apply In_nth_error in He as [k Hk].
  revert e Hk. induction k as [|k IH]; intros e Hk; [congruence|].
  assert (Lk : (S k < length c)%nat) by (rewrite <- cyc_len; eapply nth_error_lt; eauto).
  destruct (cyc_nth c k ltac:(lia)) as (x & y & B1 & B2 & B3). destruct (cyc_nth c (S k) Lk) as (x' & y' & C1 & C2 & C3).
  destruct (Nat.eqb_spec (S k) (length c)); [lia|]. assert (x' = y) by congruence. subst x'. rewrite Hk in C3. injection C3 as ->.
  rewrite (STEP x y y'); [apply IH; auto| |]; eapply nth_error_In; eauto.
Qed.
