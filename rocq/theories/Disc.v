(** * Disc: the mesh is simply connected

    Every closed chain of mesh edges (an integer flow on the edges, balanced at every vertex)
    is the boundary of a weighted sum of triangles.  Kept by flips and by adding triangles. *)
From Coq Require Import List Arith Bool Lia ZArith.
From Verif Require Import Base Num Shape ShapeSpec Utils Points Triangles Front Sweeper Monad Lists Exact FrontSpec Geom Mesh Rotate Setup Legal Legalize Boundary Chain Attach Winding Cover CoverRun.
Import ListNotations.

(** ** flows on pairs of vertices *)
Definition flow := (nat * nat -> Z).
Definition antisym (w : flow) : Prop := forall u v, w (v, u) = (- w (u, v))%Z.
(** the flow leaving vertex u *)
Definition balance (N : nat) (w : flow) (u : nat) : Z := zsum (fun v => w (u, v)) N.
Definition is_edge (ts : TriangleStore) (e : nat * nat) : Prop := exists P, fst P < length ts /\ (pedge ts P = e \/ pedge ts P = swp e).
Definition on_edges (ts : TriangleStore) (w : flow) : Prop := forall e, w e <> 0%Z -> is_edge ts e.
(** w is the boundary of the sum of om(t) times triangle t *)
Definition bounds (ts : TriangleStore) (w : flow) (om : nat -> Z) : Prop := forall P, fst P < length ts ->
  (ptn ts P = None -> w (pedge ts P) = om (fst P)) /\
  (forall Q, ppaired ts P Q -> w (pedge ts P) = (om (fst P) - om (fst Q))%Z).
Record closed (N : nat) (ts : TriangleStore) (w : flow) : Prop := { cl_anti : antisym w; cl_bal : forall u, balance N w u = 0%Z; cl_on : on_edges ts w }.
Definition exact (N : nat) (ts : TriangleStore) : Prop := forall w, closed N ts w -> exists om, bounds ts w om.
(** every directed edge is the edge of one triangle *)
Record unique (ts : TriangleStore) : Prop := {
  un_edge : forall P Q, fst P < length ts -> fst Q < length ts -> pedge ts P = pedge ts Q -> P = Q;
  un_twin : forall P Q, fst P < length ts -> fst Q < length ts -> pedge ts Q = swp (pedge ts P) -> ppaired ts P Q
}.

(** ** sums *)
Lemma zsum_add f g n : zsum (fun v => (f v + g v)%Z) n = (zsum f n + zsum g n)%Z.
Proof. induction n; simpl; lia. Qed.
Lemma zsum_mul k f n : zsum (fun v => (k * f v)%Z) n = (k * zsum f n)%Z.
Proof. induction n; simpl; lia. Qed.
Lemma zsum_zero f n : (forall v, v < n -> f v = 0%Z) -> zsum f n = 0%Z.
Proof. induction n; simpl; intro H; auto. rewrite IHn, H; auto. Qed.
Lemma zsum_delta n x c : x < n -> zsum (fun v => if v =? x then c else 0%Z) n = c.
Proof.
  intro L. rewrite (zsum_change (fun _ => 0%Z) _ n x L).
  - rewrite zsum_zero by auto. rewrite Nat.eqb_refl. lia.
  - intros v _ Ne. destruct (Nat.eqb_spec v x); congruence.
Qed.
Lemma zsum_two f n x y : x < n -> y < n -> x <> y -> (forall v, v <> x -> v <> y -> f v = 0%Z) -> zsum f n = (f x + f y)%Z.
Proof.
  intros Lx Ly Ne H. rewrite (zsum_change2 (fun _ => 0%Z) f n x y Lx Ly Ne) by auto. rewrite zsum_zero by auto. lia.
Qed.

(** ** the boundary of one triangle *)
Definition ind (b : bool) : Z := if b then 1%Z else 0%Z.
Definition eqe (e e' : nat * nat) : Z := if (fst e =? fst e') && (snd e =? snd e') then 1%Z else 0%Z.
Lemma eqe_spec e e' : (e = e' /\ eqe e e' = 1%Z) \/ (e <> e' /\ eqe e e' = 0%Z).
Proof.
  unfold eqe. destruct e as [a b], e' as [c d]. cbn [fst snd]. destruct (Nat.eqb_spec a c) as [->|N1], (Nat.eqb_spec b d) as [->|N2]; simpl; auto; right; split; auto; congruence.
Qed.
Definition one_edge (e : nat * nat) : flow := fun f => (eqe e f - eqe (swp e) f)%Z.
Definition tri_flow (ts : TriangleStore) (a : nat) : flow := fun f => (one_edge (pedge ts (a, I0)) f + one_edge (pedge ts (a, I1)) f + one_edge (pedge ts (a, I2)) f)%Z.
Lemma one_anti e : antisym (one_edge e).
Proof. intros u v. unfold one_edge, eqe, swp. cbn [fst snd]. destruct (fst e =? u), (snd e =? v), (fst e =? v), (snd e =? u); reflexivity. Qed.
Lemma tri_anti ts a : antisym (tri_flow ts a).
Proof. intros u v. unfold tri_flow. rewrite !(one_anti _ u v). lia. Qed.
Lemma one_balance N x y u : x < N -> y < N -> balance N (one_edge (x, y)) u = (ind (Nat.eqb u x) - ind (Nat.eqb u y))%Z.
Proof.
  intros Lx Ly. unfold balance, one_edge, eqe, swp. cbn [fst snd].
  rewrite (zsum_ext _ (fun v => ((if Nat.eqb v y then (if Nat.eqb u x then 1 else 0) else 0) + (if Nat.eqb v x then (if Nat.eqb u y then -1 else 0) else 0))%Z)).
  - rewrite (zsum_add (fun v => if v =? y then _ else _) (fun v => if v =? x then _ else _)), !zsum_delta by auto. unfold ind. destruct (u =? x), (u =? y); lia.
  - intros v _. rewrite (Nat.eqb_sym x u), (Nat.eqb_sym y v), (Nat.eqb_sym y u), (Nat.eqb_sym x v). destruct (u =? x), (v =? y), (u =? y), (v =? x); simpl; lia.
Qed.
Lemma tri_balance N zc ts a u : mesh N zc ts -> a < length ts -> balance N (tri_flow ts a) u = 0%Z.
Proof.
  intros M L. unfold balance, tri_flow. rewrite (zsum_add (fun v => (_ + _)%Z)), (zsum_add (fun v => one_edge (pedge ts (a, I0)) (u, v))).
  assert (R : forall i, tv ts a i < N) by (intro; apply (m_range M); auto).
  pose proof (one_balance N (tv ts a I1) (tv ts a I2) u (R _) (R _)) as X0. pose proof (one_balance N (tv ts a I2) (tv ts a I0) u (R _) (R _)) as X1.
  pose proof (one_balance N (tv ts a I0) (tv ts a I1) u (R _) (R _)) as X2. unfold balance in *. unfold pedge. cbn [fst snd nxt prv]. rewrite X0, X1, X2. lia.
Qed.
Lemma one_at e f : one_edge e f <> 0%Z -> f = e \/ f = swp e.
Proof. unfold one_edge. destruct (eqe_spec e f) as [[H1 ->]|[N1 ->]], (eqe_spec (swp e) f) as [[H2 ->]|[N2 ->]]; auto; lia. Qed.
Lemma tri_on ts a f : tri_flow ts a f <> 0%Z -> exists i, f = pedge ts (a, i) \/ f = swp (pedge ts (a, i)).
Proof.
  unfold tri_flow. intro H.
  destruct (Z.eq_dec (one_edge (pedge ts (a, I0)) f) 0) as [E0|E0]; [|exists I0; apply one_at; auto].
  destruct (Z.eq_dec (one_edge (pedge ts (a, I1)) f) 0) as [E1|E1]; [|exists I1; apply one_at; auto].
  exists I2. apply one_at. lia.
Qed.
Lemma pedge_ne N zc ts P : mesh N zc ts -> fst P < length ts -> swp (pedge ts P) <> pedge ts P.
Proof.
  intros M L H. unfold pedge, swp in H. cbn [fst snd] in H. injection H as H1 H2. apply (tv_inj (m_ccw M _ L)) in H1. destruct (snd P); discriminate.
Qed.
Lemma tri_at_own N zc ts a i : mesh N zc ts -> a < length ts -> tri_flow ts a (pedge ts (a, i)) = 1%Z.
Proof.
  intros M L. pose proof (m_ccw M a L) as C.
  assert (D : forall k l, tv ts a k = tv ts a l -> k = l) by (intros k l; apply (tv_inj C)).
  assert (K : forall k l, one_edge (pedge ts (a, k)) (pedge ts (a, l)) = if ix_eq_dec k l then 1%Z else 0%Z).
  { intros k l. unfold one_edge. destruct (eqe_spec (pedge ts (a, k)) (pedge ts (a, l))) as [[H1 ->]|[N1 ->]].
    - unfold pedge in H1. cbn [fst snd] in H1. injection H1 as H1 _. apply D in H1. assert (k = l) as <- by (destruct k, l; simpl in H1; congruence).
      destruct (eqe_spec (swp (pedge ts (a, k))) (pedge ts (a, k))) as [[H2 _]|[_ ->]]; [destruct (pedge_ne N zc ts (a, k) M L H2)|].
      destruct (ix_eq_dec k k); [reflexivity|congruence].
    - destruct (ix_eq_dec k l) as [->|Ne]; [congruence|].
      destruct (eqe_spec (swp (pedge ts (a, k))) (pedge ts (a, l))) as [[H2 _]|[_ ->]]; [|reflexivity].
      exfalso. unfold pedge, swp in H2. cbn [fst snd] in H2. injection H2 as H2 H3. apply D in H2, H3. destruct k, l; simpl in *; congruence. }
  unfold tri_flow. rewrite !K. destruct i; reflexivity.
Qed.
(** the boundary of triangle a bounds triangle a *)
Lemma tri_bounds N zc ts a : mesh N zc ts -> unique ts -> a < length ts -> bounds ts (tri_flow ts a) (fun c => if c =? a then 1%Z else 0%Z).
Proof.
  intros M U L P LP.
  assert (PD : forall P, fst P = a -> tri_flow ts a (pedge ts P) = 1%Z) by (intros [c k] Q; cbn in Q; subst c; apply (tri_at_own N zc); auto).
  assert (X : fst P <> a -> (forall Q, ppaired ts P Q -> fst Q <> a) -> tri_flow ts a (pedge ts P) = 0%Z).
  { intros NP NQ. destruct (Z.eq_dec (tri_flow ts a (pedge ts P)) 0) as [H|H]; auto. exfalso. apply tri_on in H as [i [H|H]].
    - apply NP. rewrite (un_edge ts U P (a, i) LP L H). reflexivity.
    - apply (NQ (a, i)); [|reflexivity]. apply (un_twin ts U); auto. rewrite H. unfold swp. cbn [fst snd]. destruct (pedge ts (a, i)); reflexivity. }
  split.
  - intro H. destruct (Nat.eqb_spec (fst P) a) as [Q|Q]; [apply PD; auto|]. apply X; auto.
    intros R PR. destruct PR as (_ & _ & HR & _). unfold ptn in H. congruence.
  - intros Q PQ. assert (Nab : fst P <> fst Q).
    { intro H. destruct PQ as (_ & _ & _ & _ & OP). rewrite <- H in OP. eapply not_self; [|exact OP]. apply (m_ccw M). auto. }
    destruct (Nat.eqb_spec (fst P) a) as [H1|H1], (Nat.eqb_spec (fst Q) a) as [H2|H2]; [congruence| | |].
    + rewrite PD; auto.
    + pose proof (twin_edge ts P Q PQ) as TE. pose proof (PD Q H2) as H. rewrite TE in H. destruct (pedge ts P) as [u v]. cbn [fst snd] in H.
      rewrite (tri_anti ts a u v) in H. lia.
    + rewrite X; auto. intros R PR. destruct PR as (_ & _ & HR & _). destruct PQ as (_ & _ & HQ & _). congruence.
Qed.
Lemma bounds_add ts w w' om om' k : bounds ts w om -> bounds ts w' om' -> bounds ts (fun f => (w f + k * w' f)%Z) (fun c => (om c + k * om' c)%Z).
Proof.
  intros H H' P LP. destruct (H P LP) as [H1 H2], (H' P LP) as [H3 H4]. split.
  - intro Q. rewrite H1, H3; auto.
  - intros Q PQ. rewrite (H2 Q PQ), (H4 Q PQ). lia.
Qed.
Lemma bounds_ext ts w w' om : (forall f, w f = w' f) -> bounds ts w om -> bounds ts w' om.
Proof. intros E H P LP. destruct (H P LP) as [H1 H2]. rewrite <- !E. auto. Qed.

(** removing a multiple of a triangle's boundary *)
Lemma closed_sub N zc ts w a k : mesh N zc ts -> a < length ts -> antisym w -> (forall u, balance N w u = 0%Z) ->
  antisym (fun f => (w f - k * tri_flow ts a f)%Z) /\ (forall u, balance N (fun f => (w f - k * tri_flow ts a f)%Z) u = 0%Z).
Proof.
  intros M L A1 A2. split.
  - intros u v. rewrite A1, (tri_anti ts a u v). lia.
  - intro u. unfold balance. rewrite (zsum_ext _ (fun v => (w (u, v) + (- k) * tri_flow ts a (u, v))%Z)) by (intros; lia).
    rewrite (zsum_add (fun v => w (u, v)) (fun v => (- k * tri_flow ts a (u, v))%Z)), (zsum_mul (- k) (fun v => tri_flow ts a (u, v))).
    pose proof (A2 u) as X. pose proof (tri_balance N zc ts a u M L) as Y. unfold balance in X, Y. lia.
Qed.

(** ** flips *)
Lemma flip_exact N zc ts a i b j need del ts' : mesh N zc ts -> unique ts -> unique ts' -> flipspec N zc ts a i b j need del ts' -> exact N ts -> exact N ts'.
Proof.
  intros M U U' F EX w [C1 C2 C3].
  pose proof (fs_paired _ _ _ _ _ _ _ _ _ _ F) as PR. pose proof (fs_len _ _ _ _ _ _ _ _ _ _ F) as LL. pose proof (fs_mesh _ _ _ _ _ _ _ _ _ _ F) as M'.
  pose proof (fs_ne _ _ _ _ _ _ _ _ _ _ F) as Nab.
  assert (La : a < length ts) by apply PR. assert (Lb : b < length ts) by apply PR.
  assert (La' : a < length ts') by (unfold TriangleStore in *; lia).
  set (k := w (pedge ts' (a, i))). set (w' := fun f => (w f - k * tri_flow ts' a f)%Z).
  destruct (closed_sub N zc ts' w a k M' La' C1 C2) as [A1 A2]. fold w' in A1, A2.
  assert (E0 : w' (pedge ts' (a, i)) = 0%Z) by (unfold w'; rewrite (tri_at_own N zc ts' a i M' La'); unfold k; lia).
  assert (ED : forall P, diag a i b j P -> w' (pedge ts' P) = 0%Z).
  { intros P [->| ->]; auto. rewrite (twin_edge ts' (a, i) (b, j) (fs_diag _ _ _ _ _ _ _ _ _ _ F)). destruct (pedge ts' (a, i)) as [u v]. cbn [fst snd]. rewrite A1, E0. reflexivity. }
  assert (ON' : on_edges ts' w').
  { intros e H. destruct (Z.eq_dec (w e) 0) as [Q|Q]; [|apply C3; auto]. unfold w' in H. destruct (Z.eq_dec (tri_flow ts' a e) 0) as [Q'|Q']; [lia|].
    apply tri_on in Q' as [l [->| ->]]; exists (a, l); (split; [exact La'|]); [left; reflexivity|right; unfold swp; cbn [fst snd]; destruct (pedge ts' (a, l)); reflexivity]. }
  assert (SR : forall P, ~ diag a i b j P -> fst P < length ts' -> fst (src a i b j P) < length ts /\ pedge ts (src a i b j P) = pedge ts' P).
  { intros P DP LP. split.
    - unfold TriangleStore in *. rewrite LL in LP. unfold src. repeat destruct (pos_dec _ _); simpl; auto.
    - destruct (fs_edge _ _ _ _ _ _ _ _ _ _ F P DP) as [E1 E2]. unfold pedge. rewrite E1, E2. reflexivity. }
  assert (ON : on_edges ts w').
  { intros e H. destruct (ON' e H) as (P & LP & HP).
    assert (DP : ~ diag a i b j P).
    { intro D. apply H. pose proof (ED P D) as X. destruct HP as [<-|HP]; auto. rewrite HP in X. destruct e as [u v]. unfold swp in X. cbn [fst snd] in X. rewrite A1 in X. lia. }
    destruct (SR P DP LP) as [LS ES]. exists (src a i b j P). split; auto. rewrite ES. exact HP. }
  destruct (EX w' (Build_closed _ _ _ A1 A2 ON)) as [om B].
  assert (EQ : om a = om b).
  { destruct (B (a, i) La) as [_ B2]. specialize (B2 (b, j) PR). cbn [fst] in B2. enough (w' (pedge ts (a, i)) = 0%Z) by lia.
    destruct (Z.eq_dec (w' (pedge ts (a, i))) 0) as [|H]; auto. exfalso. destruct (ON' _ H) as (P & LP & HP).
    assert (DP : ~ diag a i b j P).
    { intro D. apply H. pose proof (ED P D) as X. destruct HP as [HP|HP]; rewrite HP in X; auto. destruct (pedge ts (a, i)) as [u v]. unfold swp in X. cbn [fst snd] in X. rewrite A1 in X. lia. }
    destruct (SR P DP LP) as [LS ES]. pose proof (src_nodiag N zc ts a i b j M PR P DP) as SD. apply SD. rewrite <- ES in HP. destruct HP as [HP|HP].
    - left. apply (un_edge ts U); auto.
    - right. apply (un_edge ts U); auto. rewrite HP. symmetry. apply (twin_edge ts (a, i) (b, j) PR). }
  assert (OS : forall P, om (fst (src a i b j P)) = om (fst P)).
  { intro P. unfold src. repeat destruct (pos_dec _ _); subst; cbn [fst]; auto. }
  assert (B' : bounds ts' w' om).
  { intros P LP. destruct (pos_dec P (a, i)) as [->|Na]; [|destruct (pos_dec P (b, j)) as [->|Nb]].
    - split; [intro H; destruct (fs_diag _ _ _ _ _ _ _ _ _ _ F) as (_ & _ & X & _); unfold ptn in H; congruence|].
      intros Q PQ. rewrite E0. cbn [fst]. destruct (fs_diag_inv _ _ _ _ _ _ _ _ _ _ F (a, i) Q (or_introl eq_refl) PQ) as [->| ->]; cbn [fst]; lia.
    - split; [intro H; destruct (fs_diag _ _ _ _ _ _ _ _ _ _ F) as (_ & _ & _ & X & _); unfold ptn in H; cbn [fst snd] in *; congruence|].
      intros Q PQ. rewrite (ED (b, j) (or_intror eq_refl)). cbn [fst]. destruct (fs_diag_inv _ _ _ _ _ _ _ _ _ _ F (b, j) Q (or_intror eq_refl) PQ) as [->| ->]; cbn [fst]; lia.
    - assert (DP : ~ diag a i b j P) by (intros [H|H]; auto). destruct (SR P DP LP) as [LS ES]. destruct (B (src a i b j P) LS) as [B1 B2]. rewrite ES, OS in *. split.
      + intro H. apply B1. apply (fs_bnd _ _ _ _ _ _ _ _ _ _ F P DP); auto. unfold TriangleStore in *; lia.
      + intros Q PQ. destruct (fs_inv _ _ _ _ _ _ _ _ _ _ F P Q DP PQ) as [DQ PS]. rewrite (B2 _ PS), OS. reflexivity. }
  exists (fun c => (om c + k * (if Nat.eqb c a then 1 else 0))%Z). eapply bounds_ext; [|apply (bounds_add ts' w' (tri_flow ts' a) om (fun c => if c =? a then 1%Z else 0%Z) k B')].
  - intro f. unfold w'. lia.
  - apply (tri_bounds N zc); auto.
Qed.

(** ** adding a triangle *)
Section Attach.
Variables (N : nat) (zc : nat -> zpt) (ts : TriangleStore) (x y z : nat) (l : list (pos * pos)).
Notation n := (length ts).
Hypothesis M : mesh N zc ts.
Hypothesis CC : ccw3 zc x y z.
Hypothesis RG : x < N /\ y < N /\ z < N.
Hypothesis HL : linkable (S n) l.
Hypothesis HO : forall X Y, In (X, Y) l -> opposed (ts ++ [tri_new x y z]) (fst X) (snd X) (fst Y) (snd Y) /\
  ((fst X = n /\ bpos ts Y) \/ (bpos ts X /\ fst Y = n)).
Notation ts' := (links (ts ++ [tri_new x y z]) l).
Hypothesis U' : unique ts'.
(** all new edges of the new triangle carry the same flow *)
Hypothesis NEW : forall w, closed N ts' w -> exists k, forall i, ~ In (n, i) (flat l) -> w (pedge ts' (n, i)) = k.

Lemma attach_exact : exact N ts -> exact N ts'.
Proof using All.
  intros EX w CL. pose proof (at_mesh N zc ts x y z l M CC RG HL HO) as M'. pose proof (at_len N zc ts x y z l M CC RG HL HO) as LL.
  destruct (NEW w CL) as [k HK]. destruct CL as [C1 C2 C3].
  assert (Ln : n < length ts') by (unfold TriangleStore in *; lia).
  set (w' := fun f => (w f - k * tri_flow ts' n f)%Z). destruct (closed_sub N zc ts' w n k M' Ln C1 C2) as [A1 A2]. fold w' in A1, A2.
  assert (EN : forall i, ~ In (n, i) (flat l) -> w' (pedge ts' (n, i)) = 0%Z).
  { intros i H. unfold w'. rewrite (tri_at_own N zc ts' n i M' Ln), (HK i H). lia. }
  assert (ON' : on_edges ts' w').
  { intros e H. destruct (Z.eq_dec (w e) 0) as [Q|Q]; [|apply C3; auto]. unfold w' in H. destruct (Z.eq_dec (tri_flow ts' n e) 0) as [Q'|Q']; [lia|].
    apply tri_on in Q' as [i [->| ->]]; exists (n, i); (split; [exact Ln|]); [left; reflexivity|right; unfold swp; cbn [fst snd]; destruct (pedge ts' (n, i)); reflexivity]. }
  assert (LK : forall P, In P (flat l) -> fst P = n -> exists Q, bpos ts Q /\ ppaired ts' P Q).
  { intros P H Q. apply in_flat_map in H as ([X Y] & H1 & H2). pose proof (at_pair_l N zc ts x y z l M CC RG HL HO X Y H1) as PR.
    destruct (HO X Y H1) as [_ [[H3 H4]|[H3 H4]]]; simpl in H2; destruct H2 as [<-|[<-|[]]].
    - exists Y. auto.
    - exfalso. destruct H4 as [H4 _]. lia.
    - exfalso. destruct H3 as [H3 _]. lia.
    - exists X. split; auto. apply paired_sym. exact PR. }
  assert (ON : on_edges ts w').
  { intros e H. destruct (ON' e H) as (P & LP & HP). unfold TriangleStore in *. rewrite LL in LP. destruct (Nat.eq_dec (fst P) n) as [Q|Q].
    - destruct (in_dec pos_dec P (flat l)) as [IN|NI].
      + destruct (LK P IN Q) as (R & BR & PR). pose proof (twin_edge ts' P R PR) as TE. pose proof (proj1 BR) as LR.
        pose proof (at_pedge N zc ts x y z l M CC RG HL HO R LR) as PE. unfold TriangleStore in *. rewrite PE in TE. exists R. split; auto. rewrite TE.
        destruct HP as [<-|HP]; [right; reflexivity|left]. rewrite HP. unfold swp. cbn [fst snd]. destruct e; reflexivity.
      + exfalso. apply H. destruct P as [c i]. cbn [fst] in Q. subst c. pose proof (EN i NI) as X. destruct HP as [<-|HP]; auto.
        rewrite HP in X. destruct e as [u v]. unfold swp in X. cbn [fst snd] in X. rewrite A1 in X. lia.
    - assert (LO : fst P < n) by lia. exists P. split; auto. rewrite <- (at_pedge N zc ts x y z l M CC RG HL HO P LO). exact HP. }
  destruct (EX w' (Build_closed _ _ _ A1 A2 ON)) as [om B].
  set (om0 := fun c => if c =? n then 0%Z else om c).
  assert (OMo : forall c, c < n -> om0 c = om c) by (intros c Hc; unfold om0; destruct (Nat.eqb_spec c n); [lia|auto]).
  assert (OMn : om0 n = 0%Z) by (unfold om0; rewrite Nat.eqb_refl; auto).
  assert (OLD : forall P, fst P < n -> (ptn ts' P = None -> w' (pedge ts' P) = om0 (fst P)) /\ (forall Q, ppaired ts' P Q -> w' (pedge ts' P) = (om0 (fst P) - om0 (fst Q))%Z)).
  { intros P LP. pose proof (at_pedge N zc ts x y z l M CC RG HL HO P LP) as PE. unfold TriangleStore in *. rewrite PE, (OMo _ LP). destruct (B P LP) as [B1 B2]. split.
    - intro H. apply B1. assert (BP : bpos ts' P) by (split; [unfold TriangleStore in *; lia|exact H]).
      apply (at_bpos N zc ts x y z l M CC RG HL HO) in BP as [_ [[_ BP]|BP]]; [exact BP|lia].
    - intros Q PQ. apply (at_pair N zc ts x y z l M CC RG HL HO) in PQ as [PQ|PQ].
      + rewrite (B2 Q PQ). rewrite OMo; auto. apply PQ.
      + assert (XQ : bpos ts P /\ fst Q = n).
        { destruct PQ as [PQ|PQ]; destruct (HO _ _ PQ) as [_ [[H3 H4]|[H3 H4]]]; auto; exfalso; [|destruct H3 as [H3 _]]; lia. }
        destruct XQ as [BP ->]. rewrite OMn, B1; [lia|apply BP]. }
  assert (B' : bounds ts' w' om0).
  { intros P LP. unfold TriangleStore in *. rewrite LL in LP. destruct (Nat.eq_dec (fst P) n) as [Q|Q]; [|apply OLD; lia].
    destruct (in_dec pos_dec P (flat l)) as [IN|NI].
    - destruct (LK P IN Q) as (R & BR & PR). split; [intro H; destruct PR as (_ & _ & X & _); unfold ptn in H; unfold TriangleStore in *; congruence|].
      intros Q' PQ'. assert (fst Q' = fst R) as QR by (destruct PQ' as (_ & _ & X1 & _), PR as (_ & _ & X2 & _); congruence).
      destruct (OLD R (proj1 BR)) as [_ O2]. pose proof PR as PR2. apply paired_sym in PR2. specialize (O2 P PR2). rewrite QR.
      rewrite (twin_edge ts' P R PR) in O2. destruct (pedge ts' P) as [u v]. cbn [fst snd] in O2. rewrite A1 in O2. lia.
    - destruct P as [c i]. cbn [fst] in *. subst c. rewrite (EN i NI), OMn. split; auto. intros Q PQ. exfalso.
      apply (at_pair N zc ts x y z l M CC RG HL HO) in PQ as [PQ|PQ]; [destruct PQ as (PQ & _); cbn [fst] in PQ; lia|].
      apply NI. eapply in_l_flat; eauto. }
  exists (fun c => (om0 c + k * (if Nat.eqb c n then 1 else 0))%Z). eapply bounds_ext; [|apply (bounds_add ts' w' (tri_flow ts' n) om0 (fun c => if c =? n then 1%Z else 0%Z) k B')].
  - intro f. unfold w'. lia.
  - apply (tri_bounds N zc); auto.
Qed.
End Attach.

(** ** stores with the same triangles and neighbours *)
Lemma exact_same N ts ts' : length ts' = length ts -> (forall P, pedge ts' P = pedge ts P) -> (forall P, ptn ts' P = ptn ts P) ->
  (forall P Q, ppaired ts' P Q -> ppaired ts P Q) -> exact N ts -> exact N ts'.
Proof.
  intros LL PE PN PQ EX w [C1 C2 C3]. destruct (EX w) as [om B].
  - constructor; auto. intros e H. destruct (C3 e H) as (P & LP & HP). exists P. rewrite PE in HP. split; auto. unfold TriangleStore in *; lia.
  - exists om. intros P LP. destruct (B P ltac:(unfold TriangleStore in *; lia)) as [B1 B2]. rewrite PE, PN. split; auto.
Qed.

(** ** the sweep's operations *)
Section Two.
Context {A : Arith} {E : Exact A}.
Variable points : Points.
Hypothesis PP : proper points.
Notation N := (npts points).
Notation zc := (zc points).
Notation bnd := (boundary (ps_head points) (ps_tail points)).

Lemma mesh_unique ts ns R0 : mesh N zc ts -> chain points ns -> bnd ts ns R0 [] -> unique ts.
Proof using PP.
  intros M C B. assert (FO : front_ok points (mkFront ns None)) by (split; [exact C|exact I]). constructor.
  - intros P Q. apply (edge_unique points PP ts (mkFront ns None) R0 M FO B).
  - intros P Q. apply (edge_twin points PP ts (mkFront ns None) R0 M FO B).
Qed.

(** vertices seen so far; simply connected *)
Definition vertex (ts : TriangleStore) (v : nat) : Prop := exists c k, c < length ts /\ tv ts c k = v.
Definition seen (D : list nat) (v : nat) : Prop := In v D \/ v = ps_head points \/ v = ps_tail points.
Record disc (D : list nat) (ts : TriangleStore) : Prop := {
  di_seen : forall a i, a < length ts -> seen D (tv ts a i);
  di_exact : exact N ts;
  di_vert : forall v, In v D -> vertex ts v
}.
Lemma disc_same D ts ts' : length ts' = length ts -> (forall c k, tv ts' c k = tv ts c k) -> (forall P, ptn ts' P = ptn ts P) ->
  (forall P Q, ppaired ts' P Q -> ppaired ts P Q) -> disc D ts -> disc D ts'.
Proof using.
  intros LL TV PN PQ [D1 D2 D3]. constructor.
  - intros a i La. rewrite TV. apply D1. unfold TriangleStore in *; lia.
  - apply (exact_same N ts ts'); auto. intro P. unfold pedge. rewrite !TV. reflexivity.
  - intros v Hv. destruct (D3 v Hv) as (c & k & Lc & Q). exists c, k. rewrite TV. split; auto. unfold TriangleStore in *; lia.
Qed.
Lemma flip_vertex ts a i b j need del ts' v : flipspec N zc ts a i b j need del ts' -> vertex ts v -> vertex ts' v.
Proof using.
  intros F (c & k & Lc & <-).
  pose proof (fs_len _ _ _ _ _ _ _ _ _ _ F) as LL. destruct (fs_paired _ _ _ _ _ _ _ _ _ _ F) as (La & Lb & _ & _ & O1 & O2).
  assert (La' : a < length ts') by (unfold TriangleStore in *; rewrite LL; auto). assert (Lb' : b < length ts') by (unfold TriangleStore in *; rewrite LL; auto).
  destruct (fs_a _ _ _ _ _ _ _ _ _ _ F) as (A1 & A2 & A3). destruct (fs_b _ _ _ _ _ _ _ _ _ _ F) as (B1 & B2 & B3).
  destruct (Nat.eq_dec c a) as [->|Na]; [|destruct (Nat.eq_dec c b) as [->|Nb]].
  - destruct (ix_cases i k) as [->|[->| ->]]; [exists a, (nxt i)|exists b, j|exists a, i]; auto.
  - destruct (ix_cases j k) as [->|[->| ->]]; [exists a, (prv i)|exists a, i|exists b, j]; split; auto; congruence.
  - exists c, k. split; [unfold TriangleStore in *; rewrite LL; auto|]. eapply fs_out; eauto.
Qed.
Lemma disc_flip D ts ns R0 a i b j need del ts' : mesh N zc ts -> chain points ns -> bnd ts ns R0 [] -> flipspec N zc ts a i b j need del ts' -> disc D ts -> disc D ts'.
Proof using PP.
  intros M C B F [D1 D2 D3]. pose proof (fs_len _ _ _ _ _ _ _ _ _ _ F) as LL. pose proof (fs_paired _ _ _ _ _ _ _ _ _ _ F) as PR.
  assert (La : a < length ts) by apply PR. assert (Lb : b < length ts) by apply PR. constructor.
  - intros c k Lc. destruct (Nat.eq_dec c a) as [->|Na]; [|destruct (Nat.eq_dec c b) as [->|Nb]].
    + destruct (fs_a _ _ _ _ _ _ _ _ _ _ F) as (F1 & F2 & F3). destruct (ix_cases i k) as [->|[->| ->]]; [rewrite F1|rewrite F2|rewrite F3]; auto.
    + destruct (fs_b _ _ _ _ _ _ _ _ _ _ F) as (F1 & F2 & F3). destruct (ix_cases j k) as [->|[->| ->]]; [rewrite F1|rewrite F2|rewrite F3]; auto.
    + rewrite (fs_out _ _ _ _ _ _ _ _ _ _ F) by auto. apply D1. unfold TriangleStore in *; lia.
  - pose proof (boundary_flip _ _ N zc ts a i b j need del ts' ns R0 M F B) as B'.
    apply (flip_exact N zc ts a i b j need del ts'); auto.
    + eapply mesh_unique; eauto.
    + eapply mesh_unique; [apply (fs_mesh _ _ _ _ _ _ _ _ _ _ F)|exact C|exact B'].
  - intros v Hv. eapply flip_vertex; eauto.
Qed.

Section Ops.
Variables (ts : TriangleStore) (ns : list Entry).
Hypothesis M : mesh N zc ts.
Hypothesis C : chain points ns.
Hypothesis B : bnd ts ns [] [].
Lemma disc_fill D k ep en ex P1 P2 : nth_error ns k = Some ep -> nth_error ns (S k) = Some en -> nth_error ns (S (S k)) = Some ex ->
  bpos ts P1 -> pedge ts P1 = (en_pid en, en_pid ep) -> bpos ts P2 -> pedge ts P2 = (en_pid ex, en_pid en) ->
  ccw3 zc (en_pid ep) (en_pid en) (en_pid ex) -> unique (filled ts ep en ex P1 P2) -> disc D ts -> disc D (filled ts ep en ex P1 P2).
Proof using M C B.
  intros Hp Hn Hx B1 E1 B2 E2 CC U [D1 D2 D3].
  pose proof (fill_linkable points ts ns C k ep en ex P1 P2 Hp Hn Hx B1 E1 B2 E2) as FL. pose proof (fill_opp ts ep en ex P1 P2 B1 E1 B2 E2) as FOp.
  pose proof (fill_range points ns C k ep en ex Hp Hn Hx) as FR.
  pose proof (at_len N zc ts _ _ _ (fill_links ts P1 P2) M CC FR FL FOp) as LL. constructor.
  - intros a i La. unfold filled in La. unfold TriangleStore in *. rewrite LL in La. destruct (Nat.eq_dec a (length ts)) as [->|Ne].
    + destruct (at_new N zc ts _ _ _ (fill_links ts P1 P2) M CC FR FL FOp) as (A0 & A1 & A2). unfold filled.
      assert (S1 : forall P, bpos ts P -> seen D (fst (pedge ts P)) /\ seen D (snd (pedge ts P))) by (intros P [LP _]; unfold pedge; cbn [fst snd]; auto).
      pose proof (S1 P1 B1) as [X1 X2]. pose proof (S1 P2 B2) as [X3 X4]. rewrite E1 in X1, X2. rewrite E2 in X3, X4. cbn [fst snd] in *.
      destruct i; unfold TriangleStore in *; [rewrite A0|rewrite A1|rewrite A2]; auto.
    + unfold filled. unfold TriangleStore in *. pose proof (at_old N zc ts _ _ _ (fill_links ts P1 P2) M CC FR FL FOp a i ltac:(lia)) as Q. unfold TriangleStore in *. rewrite Q. apply D1. lia.
  - apply (attach_exact N zc ts _ _ _ (fill_links ts P1 P2) M CC FR FL FOp U); auto.
    intros w _. exists (w (pedge (filled ts ep en ex P1 P2) (length ts, I1))). intros i NI. destruct i; [|reflexivity|]; exfalso; apply NI; unfold flat, fill_links; simpl; auto.
  - intros v Hv. destruct (D3 v Hv) as (c & k' & Lc & <-). exists c, k'. unfold filled. unfold TriangleStore in *. split; [lia|].
    apply (at_old N zc ts _ _ _ (fill_links ts P1 P2) M CC FR FL FOp c k' Lc).
Qed.
Lemma disc_insert D k id en ex P0 : nth_error ns k = Some en -> nth_error ns (S k) = Some ex -> bpos ts P0 -> pedge ts P0 = (en_pid ex, en_pid en) ->
  ccw3 zc id (en_pid en) (en_pid ex) -> id < N -> ~ seen D id -> unique (inserted ts id en ex P0) -> disc D ts -> disc (id :: D) (inserted ts id en ex P0).
Proof using M C.
  intros Hn Hx B0 E0 CC Lid NS U [D1 D2 D3].
  pose proof (ins_linkable points ts id en ex P0 B0 E0 Lid) as FL. pose proof (ins_opp ts id en ex P0 B0 E0) as FOp.
  pose proof (ins_range points ns C k id en ex Hn Hx Lid) as FR.
  pose proof (at_len N zc ts _ _ _ (ins_links ts P0) M CC FR FL FOp) as LL.
  destruct (at_new N zc ts _ _ _ (ins_links ts P0) M CC FR FL FOp) as (A0 & A1 & A2).
  assert (OLD : forall a i, a < length ts -> tv (inserted ts id en ex P0) a i = tv ts a i).
  { intros a i La. apply (at_old N zc ts _ _ _ (ins_links ts P0) M CC FR FL FOp a i La). }
  assert (SE : seen D (en_pid en) /\ seen D (en_pid ex)).
  { assert (X : seen D (fst (pedge ts P0)) /\ seen D (snd (pedge ts P0))) by (destruct B0 as [LP _]; unfold pedge; cbn [fst snd]; auto). rewrite E0 in X. cbn [fst snd] in X. tauto. }
  assert (SU : forall v, seen D v -> seen (id :: D) v) by (intros v [H|H]; [left; right; auto|right; auto]).
  constructor.
  - intros a i La. unfold TriangleStore in *. unfold inserted in La. unfold TriangleStore in *. rewrite LL in La. destruct (Nat.eq_dec a (length ts)) as [->|Ne].
    + unfold inserted. unfold TriangleStore in *. destruct i; unfold TriangleStore in *; [rewrite A0|rewrite A1|rewrite A2]; try (apply SU; tauto). left. left. reflexivity.
    + pose proof (OLD a i ltac:(lia)) as Q. unfold TriangleStore in *. rewrite Q. apply SU, D1. lia.
  - apply (attach_exact N zc ts _ _ _ (ins_links ts P0) M CC FR FL FOp U); auto.
    intros w [C1 C2 C3]. fold (inserted ts id en ex P0) in *.
    pose proof (ins_pedge_1 points ts ns M C k id en ex P0 Hn Hx B0 E0 CC Lid) as Q1. pose proof (ins_pedge_2 points ts ns M C k id en ex P0 Hn Hx B0 E0 CC Lid) as Q2.
    exists (w (pedge (inserted ts id en ex P0) (length ts, I1))). intros i NI. destruct i; [exfalso; apply NI; unfold flat, ins_links; simpl; auto|reflexivity|].
    rewrite Q1, Q2. destruct (ccw3_distinct CC) as (N1 & N2 & N3).
    pose proof (C2 id) as BAL. unfold balance in BAL. rewrite (zsum_two (fun v => w (id, v)) N (en_pid en) (en_pid ex)) in BAL; try tauto.
    + rewrite (C1 id (en_pid ex)). lia.
    + intros v Nv1 Nv2. destruct (Z.eq_dec (w (id, v)) 0) as [|H]; auto. exfalso.
      destruct (C3 _ H) as ([c i] & LP & HP). cbn [fst] in LP. assert (LP2 : c < S (length ts)) by (unfold TriangleStore in *; lia). clear LP. rename LP2 into LP. destruct (Nat.eq_dec c (length ts)) as [->|Ne].
      * unfold pedge, swp in HP. cbn [fst snd] in HP. unfold TriangleStore in *. destruct i; cbn [nxt prv] in HP; unfold TriangleStore in *; rewrite ?A0, ?A1, ?A2 in HP;
          destruct HP as [HP|HP]; inversion HP; congruence.
      * unfold pedge, swp in HP. cbn [fst snd] in HP. pose proof (OLD c (nxt i) ltac:(lia)) as O1. pose proof (OLD c (prv i) ltac:(lia)) as O2. unfold TriangleStore in *. rewrite O1, O2 in HP.
        apply NS. destruct HP as [HP|HP]; injection HP as HP1 HP2; rewrite <- ?HP1, <- ?HP2; apply D1; lia.
  - unfold inserted in *. intros v [<-|Hv].
    + exists (length ts), I0. unfold TriangleStore in *. split; [lia|exact A0].
    + destruct (D3 v Hv) as (c & k' & Lc & <-). exists c, k'. unfold TriangleStore in *. split; [lia|apply OLD; exact Lc].
Qed.
End Ops.

Lemma disc_start D l h t : l < N -> h < N -> t < N -> l <> h -> h <> t -> l <> t -> seen D l -> seen D h -> seen D t ->
  (forall v, In v D -> v = l) -> disc D [tri_new l h t].
Proof using.
  intros Ll Lh Lt_ N1 N2 N3 S1 S2 S3 SD. constructor.
  - intros a i La. simpl in La. assert (a = 0) as -> by lia. destruct i; auto.
  - intros w [C1 C2 C3].
    assert (SP : forall u v, w (u, v) <> 0%Z -> (u = h /\ v = t) \/ (u = t /\ v = h) \/ (u = t /\ v = l) \/ (u = l /\ v = t) \/ (u = l /\ v = h) \/ (u = h /\ v = l)).
    { intros u v H. destruct (C3 _ H) as ([a i] & LP & HP). simpl in LP. assert (a = 0) as -> by lia. unfold pedge, swp, tv, tri_at in HP. cbn [fst snd nth] in HP.
      destruct i; simpl in HP; destruct HP as [HP|HP]; injection HP as -> ->; tauto. }
    assert (Z0 : forall u v, (u = v \/ (u <> l /\ u <> h /\ u <> t) \/ (v <> l /\ v <> h /\ v <> t)) -> w (u, v) = 0%Z).
    { intros u v H. destruct (Z.eq_dec (w (u, v)) 0) as [|Q]; auto. exfalso. apply SP in Q. intuition congruence. }
    assert (BL : (w (l, h) + w (l, t))%Z = 0%Z).
    { rewrite <- (C2 l). unfold balance. symmetry. apply (zsum_two (fun v => w (l, v))); auto. intros v V1 V2. apply Z0. destruct (Nat.eq_dec v l); auto. }
    assert (BH : (w (h, t) + w (h, l))%Z = 0%Z).
    { rewrite <- (C2 h). unfold balance. symmetry. apply (zsum_two (fun v => w (h, v))); auto. intros v V1 V2. apply Z0. destruct (Nat.eq_dec v h); auto. }
    rewrite (C1 l h) in BH. rewrite (C1 t l) in BL.
    exists (fun _ => w (h, t)). intros [a i] LP. simpl in LP. assert (a = 0) as -> by lia. split.
    + intros _. unfold pedge, tv, tri_at. cbn [fst snd nth]. destruct i; simpl; auto; lia.
    + intros Q (_ & _ & H & _). unfold tn, tri_at in H. destruct i; discriminate.
  - intros v Hv. rewrite (SD v Hv). exists 0, I0. split; [simpl; lia|reflexivity].
Qed.
End Two.
