(** * Inside: the region flooded from the first marked edge met is the inside of the outer polygon minus the holes *)
From Coq Require Import List Arith Bool Lia ZArith Permutation.
From Verif Require Import Base Num Shape ShapeSpec Utils Points Triangles Front Sweeper Monad Lists F64 Exact FrontSpec Geom Mesh Rotate Setup Legal Boundary Chain Winding Cover CoverRun Disc Stokes Flood Region.
Import ListNotations.
Local Open Scope Z_scope.

Lemma zsum_le (f g : nat -> Z) n : (forall t, (t < n)%nat -> f t <= g t) -> zsum f n <= zsum g n.
Proof. induction n as [|n IH]; simpl; intro H; [lia|]. specialize (IH ltac:(intros; apply H; lia)). specialize (H n ltac:(lia)). lia. Qed.
Lemma zsum_ne0 (f : nat -> Z) n : zsum f n <> 0 -> exists t, (t < n)%nat /\ f t <> 0.
Proof.
  induction n as [|n IH]; simpl; intro H; [lia|]. destruct (Z.eq_dec (f n) 0) as [Q|Q]; [|exists n; split; auto].
  destruct IH as (t & L & Ht); [lia|]. exists t. split; auto.
Qed.
Lemma zsum_abs (f : nat -> Z) n s : s = 1 \/ s = -1 -> (forall t, (t < n)%nat -> 0 <= s * f t) -> Z.abs (zsum f n) = zsum (fun t => s * f t) n.
Proof.
  intros S1 H. rewrite zsum_mul. assert (0 <= s * zsum f n) by (rewrite <- zsum_mul; rewrite <- (zsum_zero (fun _ => 0) n) by auto; apply zsum_le; auto).
  destruct S1; subst s; lia.
Qed.
Lemma unit_pos z w : 1 = z * w -> 0 < w -> w = 1 /\ z = 1.
Proof. intros H P. symmetry in H. destruct (Z.eq_mul_1 z w H) as [->| ->]; lia. Qed.
Lemma unit_neg z w : 1 = z * w -> w < 0 -> w = -1 /\ z = -1.
Proof. intros H P. symmetry in H. destruct (Z.eq_mul_1 z w H) as [->| ->]; lia. Qed.

Section S.
Context {A : Arith} {E : Exact A}.
Variable points : Points.
Hypothesis PP : proper points.
Notation N := (npts points).
Notation zc := (zc points).
Notation zk k := (fun v => scaled k (zc v)).
Notation bnd := (boundary (ps_head points) (ps_tail points)).
Variables (ts : TriangleStore) (ns : list Entry).
Hypothesis M : mesh N zc ts.
Hypothesis C : chain points ns.
Hypothesis B : bnd ts ns [] [].
Hypothesis EX : exact N ts.
Notation n := (length ts).
Notation W := (W points ts).

Section One.
Variable c : list nat.
Hypothesis ND : NoDup c.
Hypothesis L3 : (3 <= length c)%nat.
Hypothesis RG : forall v, In v c -> (v < N)%nat.
Hypothesis SIDES : forall e, In e (cyc c) -> is_edge ts e.

Lemma one_nd : NoDup (concat [c]). Proof using ND. simpl. rewrite app_nil_r. exact ND. Qed.
Lemma one_bounds : bounds ts (kap c) (W c).
Proof using PP M C B EX ND L3 RG SIDES.
  apply (W_bounds points PP ts ns M C B EX [c] one_nd); try (intros d; intros; simpl in *; intuition subst; auto); simpl; auto.
Qed.
(** a set of triangles bounded by c is a multiple of the winding number *)
Lemma one_set rg : (forall t, (t < n)%nat -> rg t = 0 \/ rg t = 1) ->
  (forall P Q, ppaired ts P Q -> rg (fst P) <> rg (fst Q) -> on c (pedge ts P)) ->
  (forall P, (fst P < n)%nat -> ptn ts P = None -> rg (fst P) = 1 -> on c (pedge ts P)) ->
  exists z, forall t, (t < n)%nat -> rg t = z * W c t.
Proof using PP M C B EX ND L3 RG SIDES.
  intros R1 R2 R3. exists (coef ts rg c). intros t L.
  pose proof (rg_sum points PP ts ns M C B EX [c] one_nd) as X.
  rewrite (X ltac:(intros d [<-|[]]; auto) ltac:(intros d v [<-|[]]; auto) ltac:(intros d e [<-|[]]; auto) rg R1); simpl; auto.
  - lia.
  - intros P Q PQ Ne. exists c. eauto.
  - intros P LP Q Q'. exists c. eauto.
Qed.
Lemma one_step P Q : ppaired ts P Q -> W c (fst P) <> W c (fst Q) -> on c (pedge ts P).
Proof using PP M C B EX ND L3 RG SIDES.
  intros PQ Ne. apply kap_on. assert (LP : (fst P < n)%nat) by apply PQ. destruct (one_bounds P LP) as [_ H]. rewrite (H Q PQ). lia.
Qed.
Lemma one_open P : (fst P < n)%nat -> ptn ts P = None -> W c (fst P) <> 0 -> on c (pedge ts P).
Proof using PP M C B EX ND L3 RG SIDES. intros LP Q Ne. apply kap_on. destruct (one_bounds P LP) as [H _]. rewrite (H Q). exact Ne. Qed.
(** the winding number is 0 outside and the same 1 or -1 inside (Jordan) *)
Lemma one_jordan : exists s, (s = 1 \/ s = -1) /\ (forall t, (t < n)%nat -> W c t = 0 \/ W c t = s) /\ exists t, (t < n)%nat /\ W c t = s.
Proof using PP M C B EX ND L3 RG SIDES.
  assert (X : forall p : Z -> bool, p 0 = false -> exists z, forall t, (t < n)%nat -> (if p (W c t) then 1 else 0) = z * W c t).
  { intros p P0. apply (one_set (fun t => if p (W c t) then 1 else 0)).
    - intros t _. destruct (p (W c t)); auto.
    - intros P Q PQ Ne. apply (one_step P Q PQ). intro Q'. rewrite Q' in Ne. congruence.
    - intros P LP Q Q'. apply (one_open P LP Q). intro Q''. rewrite Q'', P0 in Q'. discriminate. }
  destruct (X (fun w => 0 <? w) eq_refl) as [z1 H1]. destruct (X (fun w => w <? 0) eq_refl) as [z2 H2].
  assert (Y : exists t, (t < n)%nat /\ W c t <> 0).
  { assert (exists e, In e (cyc c)) as [e I'].
    { pose proof (cyc_len c) as X'. destruct (cyc c) as [|e l]; [simpl in X'; lia|exists e; left; auto]. }
    - assert (K : kap c e = 1) by (apply kap_in; auto).
      destruct (SIDES e I') as (P & LP & HP). assert (KP : kap c (pedge ts P) <> 0).
      { destruct HP as [->| ->]; [lia|]. destruct e as [x y]. unfold swp. cbn [fst snd]. rewrite (kap_anti c x y). lia. }
      destruct (one_bounds P LP) as [O1 O2]. destruct (ptn ts P) as [b|] eqn:Qn.
      + destruct (m_adj M (fst P) (snd P) b LP Qn) as [j PR]. change (ppaired ts P (b, j)) in PR. rewrite (O2 _ PR) in KP.
        destruct (Z.eq_dec (W c (fst P)) 0) as [Z|Z]; [exists b|exists (fst P); auto]. split; [apply PR|cbn [fst] in KP; lia].
      + rewrite (O1 eq_refl) in KP. exists (fst P). auto. }
  destruct Y as (t0 & L0 & W0).
  destruct (Z_lt_le_dec 0 (W c t0)) as [P0|P0].
  - pose proof (H1 t0 L0) as K0. rewrite (proj2 (Z.ltb_lt _ _) P0) in K0. assert (W c t0 = 1 /\ z1 = 1) as [W1 Z1] by (apply unit_pos; lia).
    exists 1. split; auto. split; [|exists t0; auto]. intros t L. specialize (H1 t L). rewrite Z1 in H1. destruct (Z.ltb_spec 0 (W c t)); lia.
  - pose proof (H2 t0 L0) as K0. assert (P1 : W c t0 < 0) by (clear - P0 W0; lia). rewrite (proj2 (Z.ltb_lt _ _) P1) in K0. assert (W c t0 = -1 /\ z2 = -1) as [W1 Z1] by (apply unit_neg; lia).
    exists (-1). split; auto. split; [|exists t0; auto]. intros t L. specialize (H2 t L). rewrite Z1 in H2. destruct (Z.ltb_spec (W c t) 0); lia.
Qed.
Lemma one_area s : (s = 1 \/ s = -1) -> (forall t, (t < n)%nat -> W c t = 0 \/ W c t = s) -> Z.abs (area2 zc c) = zsum (fun t => s * W c t * tarea points ts t) n.
Proof using PP M C B EX ND L3 RG SIDES.
  intros S1 H. rewrite (W_area points PP ts ns M C B EX [c] one_nd ltac:(intros d [<-|[]]; auto) ltac:(intros d v [<-|[]]; auto) ltac:(intros d e [<-|[]]; auto) c (or_introl eq_refl)).
  rewrite (zsum_abs _ n s S1).
  - apply zsum_ext. intros t _. unfold tarea. ring.
  - intros t L. pose proof (m_ccw M t L) as CC. unfold tccw, ccw3 in CC. destruct (H t L) as [->| ->]; [lia|]. destruct S1; subst s; lia.
Qed.
End One.

(** ** the contours of the input: marked edges of the mesh are exactly their sides *)
Variables (poly : list nat) (holes : list (list nat)).
Notation cs := (poly :: holes).
Hypothesis ND : NoDup (concat cs).
Hypothesis L3 : forall c, In c cs -> (3 <= length c)%nat.
Hypothesis RG : forall c v, In c cs -> In v c -> (v < N)%nat.
Hypothesis SIDES : forall c e, In c cs -> In e (cyc c) -> is_edge ts e.
Hypothesis MARKS : forall P, (fst P < n)%nat -> ptc ts P = true <-> exists c, In c cs /\ on c (pedge ts P).

Lemma all_bounds c : In c cs -> bounds ts (kap c) (W c).
Proof using PP M C B EX ND L3 RG SIDES. apply (W_bounds points PP ts ns M C B EX cs); auto. Qed.
Lemma unmarked P c : (fst P < n)%nat -> ptc ts P = false -> In c cs -> kap c (pedge ts P) = 0.
Proof using MARKS.
  intros LP Q I'. destruct (Z.eq_dec (kap c (pedge ts P)) 0) as [H|H]; auto. exfalso. apply kap_on in H.
  assert (ptc ts P = true) by (apply MARKS; eauto). congruence.
Qed.
Lemma marked_side P : (fst P < n)%nat -> ptc ts P = true -> exists c0, In c0 cs /\ (kap c0 (pedge ts P) = 1 \/ kap c0 (pedge ts P) = -1) /\ forall c, In c cs -> c <> c0 -> kap c (pedge ts P) = 0.
Proof using ND L3 MARKS.
  intros LP Q. apply MARKS in Q as (c0 & I' & O'); auto. exists c0. split; auto. split; [apply (on_kap cs ND L3); auto|].
  intros c Ic Ne. destruct (Z.eq_dec (kap c (pedge ts P)) 0) as [H|H]; auto. exfalso. apply Ne. apply kap_on in H. apply (on_own cs ND c c0 (pedge ts P)); auto.
Qed.

(** walking around a corner from outside *)
Lemma fan_finds p a r : fan ts p a r -> forall k, (a < n)%nat -> tv ts a k = p ->
  (forall c, In c cs -> kap c (pedge ts (a, nxt k)) = W c a) ->
  match r with
  | Some s => (s < n)%nat /\ exists c0, In c0 cs /\ (W c0 s = 1 \/ W c0 s = -1) /\ forall c, In c cs -> c <> c0 -> W c s = 0
  | None => True
  end.
Proof using PP M C B EX ND L3 RG SIDES MARKS.
  assert (T : forall a t, nth_error ts a = Some t -> tri_at ts a = t /\ (a < n)%nat).
  { intros a0 t H. split; [unfold tri_at; apply nth_error_nth; auto|apply nth_error_Some; congruence]. }
  induction 1 as [a t k0 H1 H2 H3|a t k0 H1 H2 H3 H4|a t k0 b r H1 H2 H3 H4 F IH]; intros k La Hk IN; auto; destruct (T a t H1) as [T1 _].
  - assert (k = k0) as <- by (apply (tv_inj (m_ccw M a La)); rewrite Hk; unfold tv; rewrite T1; auto).
    split; auto. destruct (marked_side (a, nxt k) La) as (c0 & I0' & K0 & KN).
    + unfold ptc, tc. cbn [fst snd]. rewrite T1. exact H3.
    + exists c0. split; auto. rewrite <- (IN c0 I0'). split; auto. intros c Ic Ne. rewrite <- (IN c Ic). auto.
  - assert (k = k0) as <- by (apply (tv_inj (m_ccw M a La)); rewrite Hk; unfold tv; rewrite T1; auto).
    assert (Hn : tn ts a (prv k) = Some b) by (unfold tn; rewrite T1; auto).
    destruct (m_adj M a (prv k) b La Hn) as [j PR]. pose proof PR as (_ & Lb & _ & _ & V1 & V2).
    assert (Z0 : forall c, In c cs -> W c a = 0).
    { intros c Ic. rewrite <- (IN c Ic). apply unmarked; auto. unfold ptc, tc. cbn [fst snd]. rewrite T1. exact H3. }
    apply (IH (prv j)); auto.
    + rewrite nxt_prv in V1. congruence.
    + intros c Ic. rewrite nxt_prv. change (ppaired ts (a, prv k) (b, j)) in PR. apply paired_sym in PR; change (ppaired ts (b, j) (a, prv k)) in PR.
      destruct (all_bounds c Ic (b, j) Lb) as [_ X]. rewrite (X _ PR). cbn [fst]. rewrite (Z0 c Ic). lia.
Qed.

(** the walk that starts below the front edge to the right of node e *)
Lemma fan_seed_spec e e' a r : adjacent ns e e' -> en_tri e = Some a -> fan ts (en_pid e) a r ->
  match r with
  | Some s => (s < n)%nat /\ exists c0, In c0 cs /\ (W c0 s = 1 \/ W c0 s = -1) /\ forall c, In c cs -> c <> c0 -> W c s = 0
  | None => True
  end.
Proof using PP M C B EX ND L3 RG SIDES MARKS.
  intros AD TR F. destruct (bd_front _ _ _ _ _ _ B e e' AD) as ([b i] & [LP NP] & PE & [Q|[[]|[]]]). cbn [fst] in Q.
  assert (a = b) as -> by congruence. unfold pedge in PE. cbn [fst snd] in *. injection PE as E1 E2.
  apply (fan_finds (en_pid e) b r F (prv i)); auto. intros c Ic. rewrite nxt_prv. destruct (all_bounds c Ic (b, i) LP) as [X _]. apply X. exact NP.
Qed.

Variables (l : list nat) (s0 : nat) (c0 : list nat).
Hypothesis LR : forall i, In i l <-> region ts s0 i.
Hypothesis Ls : (s0 < n)%nat.
Hypothesis Ic0 : In c0 cs.
Hypothesis W0 : W c0 s0 = 1 \/ W c0 s0 = -1.
Hypothesis WN : forall c, In c cs -> c <> c0 -> W c s0 = 0.

Lemma open_step t u : open_neighbor ts t u -> exists P Q, ppaired ts P Q /\ fst P = t /\ fst Q = u /\ ptc ts P = false.
Proof using M.
  intros (x & i & H1 & H2 & H3). assert (tri_at ts t = x) as Q by (unfold tri_at; apply nth_error_nth; auto).
  assert (L : (t < n)%nat) by (apply nth_error_Some; congruence).
  assert (Hn : tn ts t i = Some u) by (unfold tn; rewrite Q; auto). destruct (m_adj M t i u L Hn) as [j PR].
  exists (t, i), (u, j). split; [exact PR|]. split; [reflexivity|]. split; [reflexivity|]. unfold ptc, tc. cbn [fst snd]. rewrite Q. exact H2.
Qed.
Lemma step_open P Q : ppaired ts P Q -> ptc ts P = false -> open_neighbor ts (fst P) (fst Q).
Proof using.
  intros (LP & LQ & H1 & H2 & _) H. destruct (nth_error ts (fst P)) as [x|] eqn:X; [|exfalso; apply nth_error_None in X; exact (Nat.lt_irrefl _ (Nat.lt_le_trans _ _ _ LP X))].
  assert (tri_at ts (fst P) = x) as T by (unfold tri_at; apply nth_error_nth; auto).
  exists x, (snd P). split; [exact X|]. unfold ptc, tc in H. unfold tn in H1. rewrite T in H, H1. auto.
Qed.
Lemma reg_spec t : region ts s0 t -> (t < n)%nat /\ forall c, In c cs -> W c t = W c s0.
Proof using PP M C B EX ND L3 RG SIDES MARKS Ls.
  induction 1 as [|t u R [Lt_ IH] O']; [auto|]. destruct (open_step t u O') as (P & Q & PQ & <- & <- & T). pose proof PQ as (_ & LQ & _).
  split; [exact LQ|]. intros c Ic. rewrite <- (IH c Ic). destruct (all_bounds c Ic P Lt_) as [_ X]. specialize (X Q PQ). rewrite (unmarked P c Lt_ T Ic) in X. lia.
Qed.
Definition rg (t : nat) : Z := if in_dec Nat.eq_dec t l then 1 else 0.
Lemma rg_in t : rg t = 1 <-> In t l. Proof using. unfold rg. destruct (in_dec _ _ _); split; auto; try discriminate; contradiction. Qed.
Lemma rg_01 t : rg t = 0 \/ rg t = 1. Proof using. unfold rg. destruct (in_dec _ _ _); auto. Qed.
Lemma rg_closed P Q : ppaired ts P Q -> rg (fst P) <> rg (fst Q) -> exists c, In c cs /\ on c (pedge ts P).
Proof using PP M C B EX ND L3 RG SIDES MARKS LR Ls Ic0 W0.
  intros PQ Ne. pose proof PQ as (LP & LQ & _).
  assert (X : forall P Q, ppaired ts P Q -> In (fst P) l -> ~ In (fst Q) l -> exists c, In c cs /\ on c (pedge ts P)).
  { clear P Q PQ Ne LP LQ. intros P Q PQ I1' I2'. pose proof PQ as (LP & LQ & _). apply MARKS; auto. destruct (ptc ts P) eqn:T; auto. exfalso. apply I2'.
    apply LR. apply LR in I1'. eapply region_step; [exact I1'|]. apply step_open; auto. }
  unfold rg in Ne. destruct (in_dec Nat.eq_dec (fst P) l) as [I1'|I1'], (in_dec Nat.eq_dec (fst Q) l) as [I2'|I2']; try congruence; [eauto|].
  assert (QP : ppaired ts Q P) by (apply paired_sym; exact PQ).
  destruct (X Q P QP I2' I1') as (c & Ic & O'). exists c. split; auto.
  assert (pedge ts Q = swp (pedge ts P)) as H.
  { destruct PQ as (_ & _ & _ & _ & V1 & V2). unfold pedge, swp. cbn [fst snd]. congruence. }
  rewrite H in O'. destruct (pedge ts P) as [x y]. unfold on, swp in *. cbn [fst snd] in *. tauto.
Qed.
Lemma rg_open P : (fst P < n)%nat -> ptn ts P = None -> rg (fst P) = 1 -> exists c, In c cs /\ on c (pedge ts P).
Proof using PP M C B EX ND L3 RG SIDES MARKS LR Ls Ic0 W0.
  intros LP Q R. apply rg_in, LR in R. apply reg_spec in R as [_ R]. apply MARKS; auto. destruct (ptc ts P) eqn:T; auto. exfalso.
  pose proof (unmarked P c0 LP T Ic0) as K. destruct (all_bounds c0 Ic0 P LP) as [X _]. rewrite (X Q) in K. rewrite (R c0 Ic0) in K. lia.
Qed.
Lemma rg_is t : (t < n)%nat -> rg t = zsuml (fun c => coef ts rg c * W c t) cs.
Proof using PP M C B EX ND L3 RG SIDES MARKS LR Ls Ic0 W0.
  apply (rg_sum points PP ts ns M C B EX cs ND L3 RG SIDES rg (fun t _ => rg_01 t) rg_closed rg_open).
Qed.
Lemma nd_all : NoDup cs. Proof using ND L3. apply (nd_cs cs ND L3). Qed.
Lemma coef_c0 : coef ts rg c0 = W c0 s0.
Proof using PP M C B EX ND L3 RG SIDES MARKS LR Ls Ic0 W0 WN.
  pose proof (rg_is s0 Ls) as H. rewrite (proj2 (rg_in s0)) in H by (apply LR; constructor).
  rewrite (zsuml_only _ cs c0 nd_all Ic0) in H; [|intros c Ic Ne; rewrite (WN c Ic Ne); lia]. destruct W0 as [Q|Q]; rewrite Q in *; lia.
Qed.

(** holes lie inside the outer polygon and do not overlap *)
Hypothesis NEST : forall k q h, 0 < k -> In h holes -> wind (zk k) h q <> 0 ->
  wind (zk k) poly q <> 0 /\ forall h', In h' holes -> h' <> h -> wind (zk k) h' q = 0.
Lemma nest_W t h : In h holes -> W h t <> 0 -> W poly t <> 0 /\ forall h', In h' holes -> h' <> h -> W h' t = 0.
Proof using NEST. intros Ih H. apply (NEST 3 (mid points ts t) h); auto. reflexivity. Qed.
Lemma poly_not_hole : ~ In poly holes.
Proof using ND L3. pose proof nd_all as H. inversion H; auto. Qed.
Lemma c0_poly : c0 = poly.
Proof using ND L3 Ls Ic0 W0 WN NEST.
  destruct Ic0 as [H|H]; auto. exfalso. destruct (nest_W s0 c0 H) as [X _]; [destruct W0 as [Q|Q]; rewrite Q; lia|].
  apply X, WN; [left; auto|]. intro QQ. apply poly_not_hole. rewrite QQ. exact H.
Qed.
Theorem inside_iff t : (t < n)%nat -> In t l <-> W poly t <> 0 /\ forall h, In h holes -> W h t = 0.
Proof using PP M C B EX ND L3 RG SIDES MARKS LR Ls Ic0 W0 WN NEST.
  intro L. pose proof c0_poly as Q. split.
  - intro H. apply LR in H. apply reg_spec in H as [_ H]. rewrite <- Q. split; [rewrite (H c0 Ic0); destruct W0 as [X|X]; rewrite X; lia|].
    intros h Ih. rewrite (H h (or_intror Ih)). apply WN; [right; auto|]. intro QQ. rewrite QQ, Q in Ih. exact (poly_not_hole Ih).
  - intros [H1 H2]. pose proof (rg_is t L) as X. rewrite (zsuml_only _ cs poly nd_all (or_introl eq_refl)) in X.
    + apply rg_in. destruct (rg_01 t) as [Z|Z]; auto. exfalso. rewrite Z in X. rewrite <- Q, coef_c0 in X. rewrite <- Q in H1. destruct W0 as [X'|X']; rewrite X' in X; lia.
    + intros c [<-|Ic] Ne; [congruence|]. rewrite (H2 c Ic). lia.
Qed.
(** points *)
Theorem inside_points_sound k q t : 0 < k -> In t l -> inside (zk k) ts t q -> wind (zk k) poly q <> 0 /\ forall h, In h holes -> wind (zk k) h q = 0.
Proof using PP M C B EX ND L3 RG SIDES MARKS LR Ls Ic0 W0 WN NEST.
  intros K It IN. assert (L : (t < n)%nat) by (apply LR, reg_spec in It; tauto). apply inside_iff in It as [H1 H2]; auto.
  assert (X : forall c, In c cs -> wind (zk k) c q = W c t) by (intros c Ic; apply (W_inside points PP ts ns M C B EX cs ND L3 RG SIDES c k q t Ic K L IN)).
  split; [rewrite X; simpl; auto|]. intros h Ih. rewrite X; simpl; auto.
Qed.
Theorem inside_points_complete k q : 0 < k -> wind (zk k) poly q <> 0 -> (forall h, In h holes -> wind (zk k) h q = 0) ->
  exists t, In t l /\ (t < n)%nat /\ wnt (zk k) ts q t = 1.
Proof using PP M C B EX ND L3 RG SIDES MARKS LR Ls Ic0 W0 WN NEST.
  intros K H1 H2.
  pose proof (rg_depth points PP ts ns M C B EX cs ND L3 RG SIDES rg (fun t _ => rg_01 t) rg_closed rg_open k q K) as X.
  rewrite (zsuml_only _ cs poly nd_all (or_introl eq_refl)) in X; [|intros c [<-|Ic] Ne; [congruence|rewrite (H2 c Ic); lia]].
  assert (coef ts rg poly <> 0). { rewrite <- c0_poly, coef_c0. destruct W0 as [Q|Q]; rewrite Q; lia. }
  destruct (zsum_ne0 (fun t => rg t * wnt (zk k) ts q t) n) as (t & L & Ht).
  - rewrite X. intro Z. apply Z.mul_eq_0 in Z. tauto.
  - exists t. pose proof (wnt_01 N (zk k) ts (mesh_scaled _ _ _ _ K M) q t ltac:(apply in_seq; lia)). destruct (rg_01 t) as [Q|Q]; [rewrite Q in Ht; lia|].
    split; [apply rg_in; auto|]. split; auto. rewrite Q in Ht. lia.
Qed.
(** area *)
Theorem inside_area : zsum (fun t => rg t * tarea points ts t) n = Z.abs (area2 zc poly) - zsuml (fun h => Z.abs (area2 zc h)) holes.
Proof using PP M C B EX ND L3 RG SIDES MARKS LR Ls Ic0 W0 WN NEST.
  assert (J : forall c, In c cs -> exists s, (s = 1 \/ s = -1) /\ (forall t, (t < n)%nat -> W c t = 0 \/ W c t = s) /\ exists t, (t < n)%nat /\ W c t = s).
  { intros c Ic. apply one_jordan; auto; [apply (concat_nodup cs); auto|intros; eapply RG; eauto|intros; eapply SIDES; eauto]. }
  assert (AR : forall c, In c cs -> Z.abs (area2 zc c) = zsum (fun t => (if W c t =? 0 then 0 else 1) * tarea points ts t) n).
  { intros c Ic. destruct (J c Ic) as (s & S1 & S2 & _). rewrite (one_area c) with (s := s); auto; [|apply (concat_nodup cs); auto|intros; eapply RG; eauto|intros; eapply SIDES; eauto].
    apply zsum_ext. intros t L. f_equal. destruct (S2 t L) as [->| ->]; destruct S1 as [->| ->]; reflexivity. }
  rewrite (AR poly (or_introl eq_refl)).
  rewrite (zsuml_ext _ (fun h => zsum (fun t => (if W h t =? 0 then 0 else 1) * tarea points ts t) n) holes) by (intros h Ih; apply AR; right; auto).
  rewrite <- zsum_zsuml'.
  assert (X : forall f g h n, (forall t, (t < n)%nat -> f t = g t - h t) -> zsum f n = zsum g n - zsum h n).
  { clear. intros f g h n H. rewrite (zsum_ext f (fun t => g t + (-1) * h t)) by (intros; rewrite H; auto; lia). rewrite zsum_add, zsum_mul. lia. }
  apply X. clear X. intros t L. rewrite (zsuml_ext _ (fun h => tarea points ts t * (if W h t =? 0 then 0 else 1)) holes) by (intros; lia). rewrite zsuml_scale.
  pose proof (inside_iff t L) as II. assert (NH : NoDup holes) by (pose proof nd_all as H; inversion H; auto).
  assert (D : (exists h, In h holes /\ W h t <> 0) \/ forall h, In h holes -> W h t = 0).
  { clear - holes. induction holes as [|h hs IH]; [right; intros ? []|]. destruct (Z.eq_dec (W h t) 0) as [Q|Q]; [|left; exists h; simpl; auto].
    destruct IH as [(h' & I' & H)|H]; [left; exists h'; simpl; auto|right; intros h' [<-|I']; auto]. }
  destruct D as [(h & Ih & Nh)|D].
  - destruct (nest_W t h Ih Nh) as [P1 P2]. rewrite (zsuml_only _ holes h NH Ih) by (intros y Iy Ne; rewrite (P2 y Iy Ne); reflexivity).
    assert (rg t = 0) as ->. { destruct (rg_01 t) as [Q|Q]; auto. apply rg_in, II in Q as [_ Q]. elim Nh. auto. }
    rewrite (proj2 (Z.eqb_neq _ _) Nh), (proj2 (Z.eqb_neq _ _) P1). lia.
  - rewrite (zsuml_zero _ holes) by (intros y Iy; rewrite (D y Iy); reflexivity). destruct (Z.eqb_spec (W poly t) 0) as [Q|Q].
    + assert (rg t = 0) as ->; [|lia]. destruct (rg_01 t) as [Q'|Q']; auto. apply rg_in, II in Q' as [Q' _]. congruence.
    + assert (rg t = 1) as ->; [|lia]. apply rg_in, II. auto.
Qed.
End S.
