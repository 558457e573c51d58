(** * Region: a set of triangles bounded by closed polygons covers what the polygons wind around *)
From Coq Require Import List Arith Bool Lia ZArith Permutation.
From Verif Require Import Base Num Shape ShapeSpec Utils Points Triangles Front Sweeper Monad Lists F64 Exact FrontSpec Geom Mesh Rotate Setup Legal Boundary Chain Winding Cover CoverRun Disc Stokes.
Import ListNotations.
Local Open Scope Z_scope.

(** winding number of the closed polygon c (vertices by number, coordinates z) around q *)
Definition wind (z : nat -> zpt) (c : list nat) (q : zpt) : Z := zsuml (fun e => cr (z (fst e)) (z (snd e)) q) (cyc c).
(** twice the signed area *)
Definition cross2 (a b : zpt) : Z := fst a * snd b - fst b * snd a.
Definition area2 (z : nat -> zpt) (c : list nat) : Z := zsuml (fun e => cross2 (z (fst e)) (z (snd e))) (cyc c).

Lemma zsum_zsuml' {X} (f : nat -> X -> Z) (l : list X) n : zsum (fun t => zsuml (f t) l) n = zsuml (fun x => zsum (fun t => f t x) n) l.
Proof. apply (zsum_zsuml (fun x t => f t x)). Qed.
Lemma zsuml_zero {X} (f : X -> Z) l : (forall x, In x l -> f x = 0) -> zsuml f l = 0.
Proof. intro H. rewrite (zsuml_ext f (fun _ => 0)) by auto. clear. induction l; simpl; auto. Qed.
Lemma zsuml_only {X} (f : X -> Z) l x : NoDup l -> In x l -> (forall y, In y l -> y <> x -> f y = 0) -> zsuml f l = f x.
Proof.
  intros ND I' H. induction l as [|y l IH]; [contradiction|]. inversion ND as [|? ? Ny ND']; subst. simpl. destruct I' as [->|I'].
  - rewrite zsuml_zero; [lia|]. intros z Iz. apply H; [right; auto|]. intros ->. contradiction.
  - rewrite IH; auto; [|intros; apply H; simpl; auto]. rewrite (H y); [lia|left; reflexivity|]. intros ->. contradiction.
Qed.
Lemma zsum_seq f n : zsuml f (seq 0 n) = zsum f n.
Proof.
  assert (X : forall n a, zsuml f (seq a (S n)) = zsuml f (seq a n) + f (a + n)%nat).
  { clear. intros n a. rewrite seq_S, zsuml_app. simpl. lia. }
  induction n as [|n IH]; auto. rewrite X, IH. reflexivity.
Qed.
Lemma NoDup_app_parts {X} (a b : list X) : NoDup (a ++ b) -> NoDup a /\ NoDup b /\ forall x, In x a -> ~ In x b.
Proof.
  induction a as [|x a IH]; simpl; intro H; [repeat split; auto; constructor|]. inversion H as [|? ? Nx H']; subst. destruct (IH H') as (H1 & H2 & H3).
  split; [constructor; auto; intro Q; apply Nx, in_or_app; auto|]. split; auto. intros y [->|Iy]; auto. intro Ib. apply Nx, in_or_app. auto.
Qed.
Lemma concat_own {X} (cs : list (list X)) c c' v : NoDup (concat cs) -> In c cs -> In c' cs -> In v c -> In v c' -> c = c'.
Proof.
  induction cs as [|d cs IH]; intros ND I1 I2 V1 V2; [contradiction|]. simpl in ND. destruct (NoDup_app_parts _ _ ND) as (_ & N2 & N3).
  destruct I1 as [->|I1], I2 as [->|I2]; auto.
  - exfalso. apply (N3 v V1). apply in_concat. eauto.
  - exfalso. apply (N3 v V2). apply in_concat. eauto.
Qed.
Lemma concat_nodup {X} (cs : list (list X)) c : NoDup (concat cs) -> In c cs -> NoDup c.
Proof.
  induction cs as [|d cs IH]; intros ND I1; [contradiction|]. simpl in ND. destruct (NoDup_app_parts _ _ ND) as (N1 & N2 & _). destruct I1 as [->|I1]; auto.
Qed.
Lemma concat_distinct {X} (cs : list (list X)) : NoDup (concat cs) -> (forall c, In c cs -> c <> []) -> NoDup cs.
Proof.
  induction cs as [|d cs IH]; intros ND NE; [constructor|]. simpl in ND. destruct (NoDup_app_parts _ _ ND) as (N1 & N2 & N3). constructor.
  - intro I'. destruct d as [|x d]; [apply (NE []); simpl; auto|]. apply (N3 x); [simpl; auto|]. apply in_concat. exists (x :: d). simpl. auto.
  - apply IH; auto. intros. apply NE. simpl; auto.
Qed.

Section S.
Context {A : Arith} {E : Exact A}.
Variable points : Points.
Hypothesis PP : proper points.
Notation N := (npts points).
Notation zc := (zc points).
Notation zk k := (fun v => scaled k (zc v)).
Notation bnd := (boundary (ps_head points) (ps_tail points)).
Variables (ts : TriangleStore) (ns : list Entry).
Hypothesis M : mesh N zc ts.
Hypothesis C : chain points ns.
Hypothesis B : bnd ts ns [] [].
Hypothesis EX : exact N ts.
Notation n := (length ts).
Let U : unique ts := mesh_unique points PP ts ns [] M C B.

(** ** one point inside each triangle *)
Definition mid (t : nat) : zpt := (fst (zc (tv ts t I0)) + fst (zc (tv ts t I1)) + fst (zc (tv ts t I2)), snd (zc (tv ts t I0)) + snd (zc (tv ts t I1)) + snd (zc (tv ts t I2))).
Lemma mid_inside t : (t < n)%nat -> inside (zk 3) ts t (mid t).
Proof using M.
  intro L. pose proof (m_ccw M t L) as CC. unfold tccw, ccw3 in CC. unfold inside, strictly_inside, mid.
  destruct (zc (tv ts t I0)) as [a b], (zc (tv ts t I1)) as [c d], (zc (tv ts t I2)) as [e f].
  unfold orient, orient_det, scaled in *. cbn [fst snd] in *. nia.
Qed.
(** at a point strictly inside t only t counts *)
Lemma wnt_inside k q t : 0 < k -> (t < n)%nat -> inside (zk k) ts t q -> wnt (zk k) ts q t = 1 /\ forall u, (u < n)%nat -> u <> t -> wnt (zk k) ts q u = 0.
Proof using PP M C B.
  intros K L H. pose proof (mesh_scaled _ _ _ _ K M) as M'. destruct (chain_vs points PP _ C) as (N1 & N2 & N3 & N4).
  pose proof (monotone_scaled points _ _ K N4) as N4'.
  assert (W1 : wnt (zk k) ts q t = 1) by (apply (wn3_ccw _ _ _ q (m_ccw M' t L)), H).
  split; auto. intros u Lu Ne. destruct (wnt_01 N (zk k) ts M' q u) as [Q|Q]; auto; [apply in_seq; lia|]. exfalso. apply Ne.
  apply (zsuml_two (wnt (zk k) ts q) (seq 0 n)); auto; try (apply in_seq; lia).
  - apply (wnt_01 N (zk k) ts M' q).
  - apply seq_NoDup.
  - pose proof (depth_between N (zk k) ts _ _ ns [] M' B N1 N2 N3 N4' q) as [D1 D2]. unfold depth in *.
    destruct (between_dec N (zk k) ts _ _ ns [] M' B N1 N2 N3 N4' q) as [Q'|Q']; [rewrite D1; auto; lia|rewrite D2; auto; lia].
Qed.
Lemma depth_le k q : 0 < k -> zsum (wnt (zk k) ts q) n <= 1.
Proof using PP M C B.
  intro K. pose proof (mesh_scaled _ _ _ _ K M) as M'. destruct (chain_vs points PP _ C) as (N1 & N2 & N3 & N4).
  pose proof (monotone_scaled points _ _ K N4) as N4'.
  pose proof (depth_between N (zk k) ts _ _ ns [] M' B N1 N2 N3 N4' q) as [D1 D2]. unfold depth in *. rewrite zsum_seq in *.
  destruct (between_dec N (zk k) ts _ _ ns [] M' B N1 N2 N3 N4' q) as [Q'|Q']; [rewrite D1; auto; lia|rewrite D2; auto; lia].
Qed.
Lemma sum_inside k q t om : 0 < k -> (t < n)%nat -> inside (zk k) ts t q -> zsum (fun a => om a * wnt (zk k) ts q a) n = om t.
Proof using PP M C B.
  intros K L H. destruct (wnt_inside k q t K L H) as [W1 W2]. rewrite (zsum_one _ _ t L); [rewrite W1; lia|]. intros v Lv Ne. rewrite W2; auto. lia.
Qed.
Lemma gtri_wnt k q a : gtri (fun e => cr (zk k (fst e)) (zk k (snd e)) q) ts a = wnt (zk k) ts q a.
Proof using. unfold gtri, wnt, wn3, pedge. cbn [fst snd nxt prv]. lia. Qed.
Lemma combo_cr k q om : zsum (fun a => om a * wnt (zk k) ts q a) n * 2 = pairing N (fun e => cr (zk k (fst e)) (zk k (snd e)) q) (combo ts om).
Proof using M.
  rewrite (pairing_combo N _ (fun u v => cr_anti (zk k u) (zk k v) q) zc ts om M). rewrite Z.mul_comm. f_equal. apply zsum_ext. intros a _. rewrite gtri_wnt. reflexivity.
Qed.

(** ** a flow has one filling *)
Lemma filling_unique w om om' : antisym w -> on_edges ts w -> bounds ts w om -> bounds ts w om' -> forall t, (t < n)%nat -> om t = om' t.
Proof using PP M C B U.
  intros A1 ON B1 B2 t L. pose proof (mid_inside t L) as IN.
  rewrite <- (sum_inside 3 (mid t) t om ltac:(lia) L IN), <- (sum_inside 3 (mid t) t om' ltac:(lia) L IN).
  pose proof (combo_cr 3 (mid t) om) as X1. pose proof (combo_cr 3 (mid t) om') as X2.
  rewrite (pairing_ext N _ (combo ts om) (combo ts om')) in X1; [cbn beta in *; lia|].
  intro e. rewrite <- (flow_is_combo N zc ts w om M U A1 ON B1 e). apply (flow_is_combo N zc ts w om' M U A1 ON B2 e).
Qed.
Lemma filling_zero om : bounds ts (fun _ => 0) om -> forall t, (t < n)%nat -> om t = 0.
Proof using PP M C B U.
  intros B1 t L. apply (filling_unique (fun _ => 0) om (fun _ => 0)); auto.
  - intros u v. reflexivity.
  - intros e H. lia.
  - intros P LP. split; auto.
Qed.

(** ** the closed polygons *)
Variable cs : list (list nat).
Hypothesis ND : NoDup (concat cs).
Hypothesis L3 : forall c, In c cs -> (3 <= length c)%nat.
Hypothesis RG : forall c v, In c cs -> In v c -> (v < N)%nat.
Definition on (c : list nat) (e : nat * nat) : Prop := In e (cyc c) \/ In (swp e) (cyc c).
(** every side of every polygon is an edge of the mesh *)
Hypothesis SIDES : forall c e, In c cs -> In e (cyc c) -> is_edge ts e.

Lemma nd_c c : In c cs -> NoDup c. Proof using ND. apply concat_nodup; auto. Qed.
Lemma nd_cs : NoDup cs.
Proof using ND L3. apply concat_distinct; auto. intros c I' ->. specialize (L3 [] I'). simpl in L3. lia. Qed.
Lemma on_own c c' e : In c cs -> In c' cs -> on c e -> on c' e -> c = c'.
Proof using ND.
  intros I1 I2 O1 O2. assert (V : forall c, on c e -> In (fst e) c).
  { intros d [Q|Q]; destruct e as [x y]; unfold swp in Q; cbn [fst snd] in *; apply cyc_in in Q; tauto. }
  eapply concat_own; eauto.
Qed.
Lemma kap_on c e : kap c e <> 0 -> on c e. Proof using. apply kap_at. Qed.
Lemma on_kap c e : In c cs -> on c e -> kap c e = 1 \/ kap c e = -1.
Proof using ND L3.
  intros I' [Q|Q]; [left; apply kap_in; auto; apply nd_c; auto|right].
  destruct e as [x y]. unfold swp in Q. cbn [fst snd] in Q. pose proof (kap_in c (y, x) (nd_c c I') (L3 c I') Q) as X. rewrite (kap_anti c x y) in X. lia.
Qed.
Lemma kap_closed c : In c cs -> closed N ts (kap c).
Proof using ND L3 RG SIDES.
  intro I'. constructor; [apply kap_anti|intro u; apply kap_balance; intros v; apply RG; auto|]. intros e H. apply kap_on in H as [H|H].
  - apply (SIDES c); auto.
  - destruct (SIDES c _ I' H) as (P & LP & [Q|Q]); exists P; (split; [exact LP|]); [right; auto|left]. rewrite Q. unfold swp. destruct e; reflexivity.
Qed.

(** the winding number of polygon c around triangle t *)
Definition W (c : list nat) (t : nat) : Z := wind (zk 3) c (mid t).
Lemma wind_sum k q c om : 0 < k -> In c cs -> bounds ts (kap c) om -> wind (zk k) c q = zsum (fun a => om a * wnt (zk k) ts q a) n.
Proof using M U ND L3 RG SIDES.
  intros K I' B1. pose proof (combo_cr k q om) as X. destruct (kap_closed c I') as [A1 _ ON].
  rewrite <- (pairing_ext N _ (kap c) (combo ts om)) in X by (intro e; apply (flow_is_combo N zc ts (kap c) om M U A1 ON B1 e)).
  rewrite (pairing_kap N _ c (fun u v => cr_anti (zk k u) (zk k v) q)) in X by (intros v; apply RG; auto). unfold wind. lia.
Qed.
Lemma W_bounds c : In c cs -> bounds ts (kap c) (W c).
Proof using PP M C B EX U ND L3 RG SIDES.
  intro I'. destruct (EX (kap c) (kap_closed c I')) as [om B1].
  assert (X : forall t, (t < n)%nat -> W c t = om t).
  { intros t L. unfold W. rewrite (wind_sum 3 (mid t) c om) by (auto; lia). apply sum_inside; [lia|exact L|apply mid_inside; exact L]. }
  intros P LP. destruct (B1 P LP) as [Q1 Q2]. rewrite (X _ LP). split; auto. intros Q PQ. rewrite (Q2 Q PQ), X; auto. apply PQ.
Qed.
(** ... is the winding number around any point strictly inside t *)
Lemma W_inside c k q t : In c cs -> 0 < k -> (t < n)%nat -> inside (zk k) ts t q -> wind (zk k) c q = W c t.
Proof using PP M C B EX U ND L3 RG SIDES.
  intros I' K L H. rewrite (wind_sum k q c (W c) K I' (W_bounds c I')). apply sum_inside; auto.
Qed.
Lemma W_sum c k q : In c cs -> 0 < k -> wind (zk k) c q = zsum (fun a => W c a * wnt (zk k) ts q a) n.
Proof using PP M C B EX U ND L3 RG SIDES. intros I' K. apply (wind_sum k q c (W c) K I' (W_bounds c I')). Qed.
Lemma W_area c : In c cs -> area2 zc c = zsum (fun t => W c t * orient (zc (tv ts t I0)) (zc (tv ts t I1)) (zc (tv ts t I2))) n.
Proof using PP M C B EX U ND L3 RG SIDES.
  intro I'. set (g := fun e => cross2 (zc (fst e)) (zc (snd e))).
  assert (GA : forall u v, g (v, u) = - g (u, v)) by (intros; unfold g, cross2; cbn [fst snd]; lia).
  destruct (kap_closed c I') as [A1 _ ON].
  pose proof (pairing_combo N g GA zc ts (W c) M) as X.
  rewrite <- (pairing_ext N g (kap c) (combo ts (W c))) in X by (intro e; apply (flow_is_combo N zc ts (kap c) (W c) M U A1 ON (W_bounds c I') e)).
  rewrite (pairing_kap N g c GA) in X by (intros v; apply RG; auto). unfold area2. change (zsuml _ (cyc c)) with (zsuml g (cyc c)).
  apply Z.mul_reg_l with 2; [lia|]. rewrite X. f_equal. apply zsum_ext. intros a _. f_equal.
  unfold gtri, g, pedge, cross2, orient, orient_det. cbn [fst snd nxt prv]. ring.
Qed.

(** ** a set of triangles bounded by the polygons *)
Variable rg : nat -> Z.
Hypothesis RG01 : forall t, (t < n)%nat -> rg t = 0 \/ rg t = 1.
(** across an edge on no polygon: both triangles in the set, or none; no open edge, other than on polygons *)
Hypothesis CLOSED : forall P Q, ppaired ts P Q -> rg (fst P) <> rg (fst Q) -> exists c, In c cs /\ on c (pedge ts P).
Hypothesis OPEN : forall P, (fst P < n)%nat -> ptn ts P = None -> rg (fst P) = 1 -> exists c, In c cs /\ on c (pedge ts P).

Definition coef (c : list nat) : Z := match cyc c with e :: _ => combo ts rg e | [] => 0 end.
Lemma rg_support e : combo ts rg e <> 0 -> exists c, In c cs /\ on c e.
Proof using M U RG01 CLOSED OPEN.
  assert (X : forall P, (fst P < n)%nat -> combo ts rg (pedge ts P) <> 0 -> exists c, In c cs /\ on c (pedge ts P)).
  { intros P LP H. destruct (combo_bounds N zc ts rg M U P LP) as [C1 C2]. destruct (ptn ts P) as [b|] eqn:Q.
    - destruct (m_adj M (fst P) (snd P) b LP Q) as [j PR]. change (ppaired ts P (b, j)) in PR. rewrite (C2 _ PR) in H.
      apply (CLOSED P (b, j) PR). lia.
    - rewrite (C1 eq_refl) in H. apply (OPEN P LP Q). destruct (RG01 _ LP); lia. }
  intro H. destruct (combo_on ts rg e H) as (P & LP & [Q|Q]); [rewrite <- Q in *; auto|].
  destruct (X P LP) as (c & I' & O').
  - rewrite Q. destruct e as [x y]. unfold swp. cbn [fst snd]. rewrite (combo_anti ts rg x y). lia.
  - exists c. split; auto. rewrite Q in O'. destruct e as [x y]. unfold on, swp in *. cbn [fst snd] in *. tauto.
Qed.
Lemma coef_on c e : In c cs -> In e (cyc c) -> combo ts rg e = coef c.
Proof using M U ND L3 RG RG01 CLOSED OPEN.
  intros I' H. destruct (constant_along N (combo ts rg) cs c (combo_anti ts rg) (fun u => combo_balance N zc ts rg u M) rg_support ND L3 RG I') as [z Hz].
  rewrite (Hz e H). unfold coef. destruct (cyc c) as [|e0 l] eqn:Q; [contradiction|]. symmetry. apply Hz. left. reflexivity.
Qed.
Definition mixed : flow := fun e => zsuml (fun c => coef c * kap c e) cs.
Lemma rg_mixed e : combo ts rg e = mixed e.
Proof using M U ND L3 RG RG01 CLOSED OPEN.
  assert (X : forall c, In c cs -> on c e -> combo ts rg e = mixed e).
  { intros c I' O'. unfold mixed. rewrite (zsuml_only _ cs c nd_cs I').
    - destruct O' as [H|H].
      + rewrite (coef_on c e I' H), (kap_in c e (nd_c c I') (L3 c I') H). lia.
      + destruct e as [x y]. unfold swp in H. cbn [fst snd] in H. rewrite (combo_anti ts rg y x), (coef_on c (y, x) I' H), (kap_anti c y x), (kap_in c (y, x) (nd_c c I') (L3 c I') H). lia.
    - intros c' I'' Ne. destruct (Z.eq_dec (kap c' e) 0) as [->|Q]; [lia|]. exfalso. apply Ne. apply (on_own c' c e I'' I'); auto. apply kap_on; auto. }
  destruct (Z.eq_dec (combo ts rg e) 0) as [Q|Q]; [|destruct (rg_support e Q) as (c & I' & O'); eauto].
  destruct (Z.eq_dec (mixed e) 0) as [Q'|Q']; [lia|].
  assert (Y : exists c, In c cs /\ kap c e <> 0).
  { unfold mixed in Q'. clear - Q'. induction cs as [|c l IH]; simpl in Q'; [lia|]. destruct (Z.eq_dec (kap c e) 0) as [H|H].
    - destruct IH as (c' & I' & H'); [rewrite H in Q'; lia|]. exists c'. simpl. auto.
    - exists c. simpl. auto. }
  destruct Y as (c & I' & H). apply (X c I'). apply kap_on; auto.
Qed.
Lemma rg_sum t : (t < n)%nat -> rg t = zsuml (fun c => coef c * W c t) cs.
Proof using PP M C B EX U ND L3 RG SIDES RG01 CLOSED OPEN.
  intro L. apply (filling_unique (combo ts rg) rg (fun t => zsuml (fun c => coef c * W c t) cs)); auto.
  - apply combo_anti.
  - apply combo_on.
  - apply (combo_bounds N zc); auto.
  - eapply bounds_ext; [intro f; symmetry; apply rg_mixed|].
    assert (X : forall l, (forall c, In c l -> In c cs) -> bounds ts (fun e => zsuml (fun c => coef c * kap c e) l) (fun t => zsuml (fun c => coef c * W c t) l)).
    { induction l as [|c l IH]; intro H; [intros P LP; split; auto|]. cbn [zsuml fold_right].
      assert (Y : bounds ts (fun e => zsuml (fun c => coef c * kap c e) l + coef c * kap c e) (fun t => zsuml (fun c => coef c * W c t) l + coef c * W c t)).
      { apply bounds_add; [apply IH; intros; apply H; simpl; auto|]. apply W_bounds. apply H. simpl; auto. }
      intros P LP. destruct (Y P LP) as [Y1 Y2]. split; [intro Q; specialize (Y1 Q)|intros Q PQ; specialize (Y2 Q PQ)]; unfold zsuml in *; lia. }
    apply X. auto.
Qed.
(** how often the set covers a point *)
Lemma rg_depth k q : 0 < k -> zsum (fun t => rg t * wnt (zk k) ts q t) n = zsuml (fun c => coef c * wind (zk k) c q) cs.
Proof using PP M C B EX U ND L3 RG SIDES RG01 CLOSED OPEN.
  intro K. rewrite (zsum_ext _ (fun t => zsuml (fun c => coef c * (W c t * wnt (zk k) ts q t)) cs)).
  - rewrite zsum_zsuml'. apply zsuml_ext. intros c I'. rewrite (zsum_mul (coef c) (fun t => W c t * wnt (zk k) ts q t)), <- (W_sum c k q I' K). reflexivity.
  - intros t L. rewrite (rg_sum t L). rewrite Z.mul_comm, <- zsuml_scale. apply zsuml_ext. intros c _. lia.
Qed.
Definition tarea (t : nat) : Z := orient (zc (tv ts t I0)) (zc (tv ts t I1)) (zc (tv ts t I2)).
Lemma rg_area : zsum (fun t => rg t * tarea t) n = zsuml (fun c => coef c * area2 zc c) cs.
Proof using PP M C B EX U ND L3 RG SIDES RG01 CLOSED OPEN.
  rewrite (zsum_ext _ (fun t => zsuml (fun c => coef c * (W c t * tarea t)) cs)).
  - rewrite zsum_zsuml'. apply zsuml_ext. intros c I'. rewrite (zsum_mul (coef c) (fun t => W c t * tarea t)), (W_area c I'). reflexivity.
  - intros t L. rewrite (rg_sum t L). rewrite Z.mul_comm, <- zsuml_scale. apply zsuml_ext. intros c _. lia.
Qed.
End S.
