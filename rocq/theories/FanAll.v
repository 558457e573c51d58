(** * FanAll: around a front node the triangles form one fan, so the walk that looks for a marked
    edge misses none *)
From Coq Require Import List Arith Bool Lia ZArith Psatz.
From Verif Require Import Base Num Shape ShapeSpec Utils Points Triangles Front Sweeper Cdt F64 Lists Monad Exact
  Flood FrontSpec Geom Mesh Rotate Setup Legal Boundary Chain FrontInv Winding Cover CoverRun Cone Planar Disc Stokes Region Good Inside.
Import ListNotations.
Local Open Scope Z_scope.

(** directions at o, clockwise, starting just right of (or at) straight up *)
Definition cw (o u v : zpt) : Prop :=
  (xlt o u /\ xlt o v /\ 0 < orient o v u) \/ (xlt o u /\ xlt v o) \/ (xlt u o /\ xlt v o /\ 0 < orient o v u).
Lemma cw_dec o u v : {cw o u v} + {~ cw o u v}.
Proof.
  unfold cw, xlt. destruct (Z_lt_dec 0 (orient o v u)) as [O1|O1], (Z_lt_dec (fst o) (fst u)), (Z_lt_dec (fst u) (fst o)), (Z_lt_dec (fst o) (fst v)), (Z_lt_dec (fst v) (fst o)),
    (Z_lt_dec (snd o) (snd u)), (Z_lt_dec (snd u) (snd o)), (Z_lt_dec (snd o) (snd v)), (Z_lt_dec (snd v) (snd o)); solve [left; lia|right; lia].
Qed.
Lemma cw_irrefl o u : ~ cw o u u.
Proof. unfold cw. rewrite (proj2 (proj2 (orient_diag o u))). unfold xlt. lia. Qed.
Lemma xlt_total a b : xlt a b \/ a = b \/ xlt b a.
Proof. unfold xlt. destruct a as [x y], b as [x' y']. simpl. destruct (Z.lt_trichotomy x x') as [?|[->|?]]; [left; lia| |right; right; lia]. destruct (Z.lt_trichotomy y y') as [?|[->|?]]; [left; lia|right; left; auto|right; right; lia]. Qed.
Lemma xlt_asym a b : xlt a b -> xlt b a -> False. Proof. unfold xlt. lia. Qed.
Lemma half_trans (a b c d e f : Z) : (0 < a \/ (a = 0 /\ 0 < b)) -> (0 < c \/ (c = 0 /\ 0 < d)) -> (0 < e \/ (e = 0 /\ 0 < f)) ->
  0 < c * b - d * a -> 0 < e * d - f * c -> 0 < e * b - f * a.
Proof.
  intros H1 H2 H3 H4 H5.
  assert (Q : c * (e * b - f * a) = e * (c * b - d * a) + a * (e * d - f * c)) by ring.
  destruct H2 as [H2|[-> H2]]; [|nia].
  destruct H3 as [H3|[-> H3]]; [|nia].
  assert (0 <= a) by lia. assert (0 < e * (c * b - d * a)) by (apply Z.mul_pos_pos; auto). assert (0 <= a * (e * d - f * c)) by (apply Z.mul_nonneg_nonneg; lia).
  assert (0 < c * (e * b - f * a)) by lia. nia.
Qed.
Lemma cw_trans o u v w : cw o u v -> cw o v w -> cw o u w.
Proof.
  assert (R : forall u v w, xlt o u -> xlt o v -> xlt o w -> 0 < orient o v u -> 0 < orient o w v -> 0 < orient o w u).
  { clear. intros u v w H1 H2 H3 H4 H5.
    assert (O : forall a b, orient o a b = (fst a - fst o) * (snd b - snd o) - (snd a - snd o) * (fst b - fst o)) by (intros; zpts; ring).
    rewrite O in *. unfold xlt in *. apply (half_trans (fst u - fst o) (snd u - snd o) (fst v - fst o) (snd v - snd o)); auto; lia. }
  assert (L : forall u v w, xlt u o -> xlt v o -> xlt w o -> 0 < orient o v u -> 0 < orient o w v -> 0 < orient o w u).
  { clear. intros u v w H1 H2 H3 H4 H5.
    assert (O : forall a b, orient o a b = (fst o - fst a) * (snd o - snd b) - (snd o - snd a) * (fst o - fst b)) by (intros; zpts; ring).
    rewrite O in *. unfold xlt in *. apply (half_trans (fst o - fst u) (snd o - snd u) (fst o - fst v) (snd o - snd v)); auto; lia. }
  intros [(A1 & A2 & A3)|[(A1 & A2)|(A1 & A2 & A3)]] [(B1 & B2 & B3)|[(B1 & B2)|(B1 & B2 & B3)]];
    try (match goal with H : xlt o ?a, H' : xlt ?a o |- _ => destruct (xlt_asym _ _ H H') end).
  - left. split; [|split]; auto. eapply R; [| | |exact A3|exact B3]; auto.
  - right. left. auto.
  - right. left. auto.
  - right. right. split; [|split]; auto. eapply L; [| | |exact A3|exact B3]; auto.
Qed.

Lemma filter_less {X} (f g : X -> bool) (l : list X) x : (forall y, f y = true -> g y = true) -> In x l -> f x = false -> g x = true -> (length (filter f l) < length (filter g l))%nat.
Proof.
  intros H. assert (LE : forall l, (length (filter f l) <= length (filter g l))%nat).
  { clear l. intro l. induction l as [|y l IH]; simpl; auto. destruct (f y) eqn:Q; [rewrite (H y Q); simpl; lia|]. destruct (g y); simpl; lia. }
  induction l as [|y l IH]; [contradiction|]; intros [<-|I'] F G; simpl.
  - rewrite F, G. simpl. specialize (LE l). lia.
  - specialize (IH I' F G). destruct (f y) eqn:Q; [rewrite (H y Q); simpl; lia|]. destruct (g y); simpl; lia.
Qed.

Section S.
Context {A : Arith} {E : Exact A}.
Variable points : Points.
Hypothesis PP : proper points.
Notation N := (npts points).
Notation zc := (zc points).
Notation bnd := (boundary (ps_head points) (ps_tail points)).
Variables (ts : TriangleStore) (ns : list Entry).
Hypothesis M : mesh N zc ts.
Hypothesis C : chain points ns.
Hypothesis B : bnd ts ns [] [].
Notation n := (length ts).

(** ** no triangle at a front node reaches above the front *)
(** a point of the triangle (p,x,y) just left of straight above p *)
Lemma up_point p x y h : xlt p x -> xlt y p -> 0 < orient p x y -> xlt h p -> fst h < fst p ->
  exists k q, 0 < k /\ strictly_inside (scaled k p) (scaled k x) (scaled k y) q /\ fst (scaled k h) <= fst q < fst (scaled k p) /\ 0 < orient (scaled k h) (scaled k p) q.
Proof.
  intros Hx Hy O _ Hh.
  assert (Y : fst y < fst p).
  { destruct Hy as [Hy|[Q Hy]]; auto. exfalso. revert O. unfold orient, orient_det. unfold xlt in Hx. rewrite Q. destruct Hx as [Hx|[Q' Hx]]; nia. }
  set (x1 := fst x - fst p). set (x2 := snd x - snd p). set (y1 := fst y - fst p). set (y2 := snd y - snd p). set (h1 := fst h - fst p). set (h2 := snd h - snd p).
  set (o := orient p x y) in *. assert (Eo : o = x1 * y2 - x2 * y1) by (unfold o, x1, x2, y1, y2; zpts; ring).
  set (K := 1 + Z.abs y2 + Z.abs (h2 * y1)). set (a := - y1 * K). set (b := x1 * K + 1).
  assert (X1 : 0 <= x1) by (unfold x1, xlt in *; lia). assert (Y1 : y1 < 0) by (unfold y1; lia). assert (H1 : h1 < 0) by (unfold h1; lia).
  assert (HK : 0 < K) by lia. assert (Ha : 0 < a) by (unfold a; nia). assert (Hb : 0 < b) by (unfold b; nia).
  set (k := a + b - y1). assert (Hk : 0 < k) by (unfold k; lia).
  exists k, (k * fst p + (a * x1 + b * y1), k * snd p + (a * x2 + b * y2)). split; auto.
  assert (W1 : a * x1 + b * y1 = y1) by (unfold a, b; ring).
  assert (W2 : a * x2 + b * y2 = K * o + y2) by (rewrite Eo; unfold a, b; ring).
  assert (W2' : Z.abs (h2 * y1) < a * x2 + b * y2) by (rewrite W2; assert (K <= K * o) by (rewrite <- (Z.mul_1_r K) at 1; apply Z.mul_le_mono_nonneg_l; lia); lia).
  split; [|split].
  - assert (F1 : orient (scaled k p) (scaled k x) (k * fst p + (a * x1 + b * y1), k * snd p + (a * x2 + b * y2)) = k * (b * o)).
    { rewrite Eo. unfold x1, x2, y1, y2. clearbody a b k. unfold scaled. zpts. ring. }
    assert (F2 : orient (scaled k x) (scaled k y) (k * fst p + (a * x1 + b * y1), k * snd p + (a * x2 + b * y2)) = k * ((k - a - b) * o)).
    { rewrite Eo. unfold x1, x2, y1, y2. clearbody a b k. unfold scaled. zpts. ring. }
    assert (F3 : orient (scaled k y) (scaled k p) (k * fst p + (a * x1 + b * y1), k * snd p + (a * x2 + b * y2)) = k * (a * o)).
    { rewrite Eo. unfold x1, x2, y1, y2. clearbody a b k. unfold scaled. zpts. ring. }
    unfold strictly_inside. rewrite F1, F2, F3. replace (k - a - b) with (- y1) by (unfold k; ring).
    split; [|split]; apply Z.mul_pos_pos; auto; apply Z.mul_pos_pos; lia.
  - unfold scaled. cbn [fst]. rewrite W1. split; [|lia]. assert (k * fst h <= k * (fst p - 1)) by (apply Z.mul_le_mono_nonneg_l; lia). unfold k in *. lia.
  - assert (F : orient (scaled k h) (scaled k p) (k * fst p + (a * x1 + b * y1), k * snd p + (a * x2 + b * y2)) = k * (- h1 * (a * x2 + b * y2) + h2 * (a * x1 + b * y1))).
    { unfold h1, h2. clearbody a b k x1 x2 y1 y2. unfold scaled. zpts. ring. }
    rewrite F. apply Z.mul_pos_pos; auto. rewrite W1. assert (a * x2 + b * y2 <= - h1 * (a * x2 + b * y2)) by (rewrite <- (Z.mul_1_l (a * x2 + b * y2)) at 1; apply Z.mul_le_mono_nonneg_r; lia). lia.
Qed.
Lemma not_above e0 e t k : adjacent ns e0 e -> fst (zc (en_pid e0)) < fst (zc (en_pid e)) -> (t < n)%nat -> tv ts t k = en_pid e ->
  xlt (zc (en_pid e)) (zc (tv ts t (nxt k))) -> xlt (zc (tv ts t (prv k))) (zc (en_pid e)) -> False.
Proof using PP M C B.
  intros AD LX L V Hx Hy. set (p := zc (en_pid e)) in *. pose proof (proj1 (tccw_at k) (m_ccw M t L)) as O. unfold ccw3 in O. rewrite V in O. fold p in O.
  assert (XL : xlt (zc (en_pid e0)) p) by (destruct AD as (j & J1 & J2); apply (ch_lt points ns C j (S j)); auto).
  destruct (up_point p _ _ (zc (en_pid e0)) Hx Hy O XL LX) as (s & q & K & S1 & S2 & S3).
  destruct (chain_vs points PP ns C) as (H1 & H2 & H3 & H4). pose proof (mesh_scaled _ _ _ _ K M) as M'. pose proof (monotone_scaled points s _ K H4) as H4'.
  assert (IN : inside (fun v => scaled s (zc v)) ts t q).
  { unfold strictly_inside in S1. apply (inside_rot ts (fun v => scaled s (zc v)) t k). unfold strictly_inside. rewrite V. fold p. tauto. }
  destruct (cover_only N _ ts _ _ ns [] M' B H1 H2 H3 H4' q t L IN) as (_ & _ & (v & v' & IV & SP & OV)).
  assert (IE : In (en_pid e0, en_pid e) (pairs (map en_pid ns))) by (apply adj_pairs; exists e0, e; auto).
  assert (Q : crosses (fun v => scaled s (zc v)) q (v, v') = crosses (fun v => scaled s (zc v)) q (en_pid e0, en_pid e)).
  { rewrite <- (cross_at (fun v => scaled s (zc v)) q _ v v' H4' IV SP). apply (cross_at (fun v => scaled s (zc v)) q _ _ _ H4' IE). exact S2. }
  unfold crosses, cr in Q. cbn [fst snd] in Q. unfold spans in SP. fold p in Q.
  rewrite (proj2 (Z.leb_le _ _) (proj1 SP)), (proj2 (Z.ltb_lt _ _) (proj2 SP)), (proj2 (Z.leb_le _ _) (proj1 S2)), (proj2 (Z.ltb_lt _ _) (proj2 S2)) in Q. cbn [andb] in Q.
  destruct (Z.leb_spec 0 (orient (scaled s (zc v)) (scaled s (zc v')) q)); [lia|]. destruct (Z.leb_spec 0 (orient (scaled s (zc (en_pid e0))) (scaled s p) q)); lia.
Qed.

(** the front has a node between head and tail *)
Lemma front_third : exists e e' a, nth_error ns 1 = Some e /\ nth_error ns 2 = Some e' /\ en_tri e = Some a.
Proof using PP M C B.
  destruct (ch_last _ _ C) as (el & El & Hl). destruct (ch_first _ _ C) as (ef & Ef & Hf). pose proof (ch_len points PP ns C) as LN.
  destruct (nth_error ns 1) as [e|] eqn:N1; [|apply nth_error_None in N1; lia].
  destruct (nth_error ns 2) as [e'|] eqn:N2.
  { destruct (en_tri e) as [a|] eqn:TR; [exists e, e', a; auto|]. exfalso. apply (ch_tri _ _ C 1 e); auto. apply nth_error_lt in N2. lia. }
  exfalso. apply nth_error_None in N2.
  assert (L2 : length ns = 2%nat) by lia.
  rewrite L2 in El. change (2 - 1)%nat with 1%nat in El. assert (el = e) by congruence. subst el.
  destruct (bd_front _ _ _ _ _ _ B ef e) as ([u i] & [LP NP'] & HP & _); [exists 0%nat; auto|]. rewrite Hf, Hl in HP.
  unfold pedge in HP. cbn [fst snd] in HP, LP. assert (H1 : tv ts u (nxt i) = ps_tail points) by congruence. assert (H2 : tv ts u (prv i) = ps_head points) by congruence.
  pose proof (m_ccw M u LP) as CC. pose proof (m_range M u i LP) as LV.
  assert (D1 : tv ts u i <> ps_head points) by (rewrite <- H2; intro Q; apply (tv_inj CC) in Q; destruct i; discriminate).
  assert (D2 : tv ts u i <> ps_tail points) by (rewrite <- H1; intro Q; apply (tv_inj CC) in Q; destruct i; discriminate).
  pose proof (pr_head _ PP) as Q1. pose proof (pr_tail _ PP) as Q2.
  destruct (pr_frame _ PP (tv ts u i) ltac:(lia)) as (X1 & X2 & X3).
  assert (O' : 0 < orient (zc (ps_tail points)) (zc (ps_head points)) (zc (tv ts u i))).
  { pose proof (proj1 (tccw_at i) CC) as O'. unfold ccw3 in O'. rewrite <- H1, <- H2. rewrite orient_rot. exact O'. }
  unfold orient, orient_det in O'. nia.
Qed.

(** ** the fan *)
Variables (e0 e e' : Entry) (a : nat).
Hypothesis AD0 : adjacent ns e0 e.
Hypothesis AD1 : adjacent ns e e'.
Hypothesis TA : en_tri e = Some a.
Hypothesis LX : fst (zc (en_pid e0)) < fst (zc (en_pid e)).
Notation p := (en_pid e).
(** from triangle t on to u, around p *)
Definition turn (t u : nat) : Prop := exists k, tv ts t k = p /\ tn ts t (prv k) = Some u.
Inductive reach : nat -> Prop :=
| reach_a : reach a
| reach_step t u : reach t -> turn t u -> reach u.

Lemma fan_at t r : fan ts p t r -> (t < n)%nat.
Proof using. intro F. inversion F; subst; apply nth_error_Some; congruence. Qed.
Lemma fan_turn t u r : fan ts p t r -> r = None -> turn t u -> fan ts p u r.
Proof using M.
  intros F Q (k & K1 & K2). subst r. pose proof (fan_at _ _ F) as L. inversion F as [|? t0 k0 H1 H2 H3 H4|? t0 k0 b ? H1 H2 H3 H4 F']; subst.
  all: assert (tri_at ts t = t0) as T1 by (unfold tri_at; apply nth_error_nth; auto).
  all: assert (k = k0) as <- by (apply (tv_inj (m_ccw M t L)); rewrite K1; unfold tv; rewrite T1; auto).
  all: unfold tn in K2; rewrite T1 in K2.
  - unfold NB in K2. congruence.
  - assert (b = u) as <- by (unfold NB in K2; congruence). exact F'.
Qed.
Lemma reach_fan t : fan ts p a None -> reach t -> fan ts p t None.
Proof using M. intros F R. induction R as [|t u R IH T]; auto. eapply fan_turn; eauto. Qed.
Lemma reach_lt t : fan ts p a None -> reach t -> (t < n)%nat.
Proof using M. intros F R. eapply fan_at. eapply reach_fan; eauto. Qed.
Lemma fan_end t : fan ts p t None -> reach t -> exists z k, reach z /\ (z < n)%nat /\ tv ts z k = p /\ tn ts z (prv k) = None.
Proof using.
  intro F. remember None as r eqn:Q. induction F as [t t0 k H1 H2 H3|t t0 k H1 H2 H3 H4|t t0 k b r H1 H2 H3 H4 F IH]; intro R; try discriminate.
  - exists t, k. assert (tri_at ts t = t0) as T1 by (unfold tri_at; apply nth_error_nth; auto). split; auto. split; [apply nth_error_Some; congruence|]. unfold tv, tn. rewrite T1. auto.
  - apply IH; auto. apply (reach_step t); auto. exists k. assert (tri_at ts t = t0) as T1 by (unfold tri_at; apply nth_error_nth; auto). unfold tv, tn. rewrite T1. auto.
Qed.

Lemma p_head : p <> ps_head points.
Proof using PP C AD0.
  destruct AD0 as (j & _ & J2). intro Q. destruct (ch_first _ _ C) as (f & F1 & F2). pose proof (ch_nodup points ns C (S j) 0 e f J2 F1 ltac:(congruence)). discriminate.
Qed.
(** the edges of the boundary at p *)
Lemma open_pos t i : (t < n)%nat -> tn ts t i = None -> tv ts t (nxt i) = p -> tv ts t (prv i) = en_pid e0.
Proof using PP C B AD0.
  intros L H V. destruct (bd_only _ _ _ _ _ _ B (t, i) (conj L H)) as [Q|(f & f' & AF & Q)]; unfold pedge in Q; cbn [fst snd] in Q.
  - exfalso. apply p_head. congruence.
  - assert (Q1 : en_pid f' = p) by congruence. assert (Q2 : tv ts t (prv i) = en_pid f) by congruence. rewrite Q2.
    destruct AF as (j & J1 & J2), AD0 as (j' & J3 & J4). pose proof (ch_nodup points ns C (S j) (S j') _ _ J2 J4 Q1) as X. injection X as <-. congruence.
Qed.
Lemma a_open : exists i, (a < n)%nat /\ tn ts a i = None /\ tv ts a (prv i) = p.
Proof using B AD1 TA.
  destruct (bd_front _ _ _ _ _ _ B e e' AD1) as ([b i] & [LP NP] & PE & [Q|[[]|[]]]). cbn [fst] in Q. assert (b = a) as -> by congruence.
  unfold pedge in PE. cbn [fst snd] in *. exists i. split; auto. split; auto. congruence.
Qed.
Lemma turn_back t u : turn t u -> (t < n)%nat -> exists j, tv ts u (prv j) = p /\ paired ts u j t (prv (prv j)) \/ exists k, tv ts t k = p /\ paired ts t (prv k) u j /\ tv ts u (prv j) = p.
Proof using M.
  intros (k & K1 & K2) L. destruct (m_adj M t (prv k) u L K2) as [j PR]. exists j. right. exists k. split; auto. split; auto.
  destruct PR as (_ & _ & _ & _ & V1 & _). rewrite nxt_prv in V1. congruence.
Qed.
(** backwards *)
Lemma reach_back t u : fan ts p a None -> (t < n)%nat -> turn t u -> reach u -> reach t.
Proof using M B AD1 TA.
  intros F L (k & K1 & K2) R. destruct (m_adj M t (prv k) u L K2) as [j PR]. pose proof PR as (_ & Lu & _ & N2 & V1 & V2). rewrite nxt_prv in V1.
  destruct R as [|t' u R' (k' & K1' & K2')].
  - exfalso. destruct a_open as (i & La & Na & Va). assert (i = j) as <-.
    { assert (Q : prv i = prv j) by (apply (tv_inj (m_ccw M a Lu)); congruence). destruct i, j; auto; discriminate. }
    congruence.
  - pose proof (reach_lt t' F R') as L'. destruct (m_adj M t' (prv k') u L' K2') as [j' PR']. pose proof PR' as (_ & _ & _ & N2' & V1' & V2'). rewrite nxt_prv in V1'.
    assert (j' = j) as ->.
    { assert (Q : prv j' = prv j) by (apply (tv_inj (m_ccw M u Lu)); congruence). destruct j, j'; auto; discriminate. }
    assert (t' = t) as <- by congruence. exact R'.
Qed.

(** the vertices clockwise after the triangle's first edge at p *)
Definition below (t : nat) (k : ix) (v : nat) : bool := if cw_dec (zc p) (zc (tv ts t (prv k))) (zc v) then true else false.
Definition left_over (t : nat) (k : ix) : nat := length (filter (below t k) (seq 0 N)).
Lemma turn_less t k u : (t < n)%nat -> tv ts t k = p -> tn ts t (prv k) = Some u ->
  exists k', (u < n)%nat /\ tv ts u k' = p /\ (left_over u k' < left_over t k)%nat.
Proof using PP M C B AD0 LX.
  intros L V Hn. destruct (m_adj M t (prv k) u L Hn) as [j PR]. pose proof PR as (_ & Lu & _ & _ & V1 & V2). rewrite nxt_prv in V1.
  assert (V2' : tv ts u (nxt j) = tv ts t (nxt k)) by (rewrite <- V2; destruct k; reflexivity).
  exists (prv j). split; auto. split; [congruence|].
  assert (PJ : prv (prv j) = nxt j) by (destruct j; reflexivity).
  assert (RN : forall c i, (c < n)%nat -> (tv ts c i < N)%nat) by (intros; apply (m_range M); auto).
  pose proof (proj1 (tccw_at k) (m_ccw M t L)) as O. unfold ccw3 in O. rewrite V in O.
  assert (NE : forall i, i <> k -> xlt (zc p) (zc (tv ts t i)) \/ xlt (zc (tv ts t i)) (zc p)).
  { intros i Ni. destruct (xlt_total (zc p) (zc (tv ts t i))) as [X|[X|X]]; auto. exfalso. apply Ni. apply (tv_inj (m_ccw M t L)). rewrite V. symmetry.
    apply (pr_inj points PP); auto. rewrite <- V. apply RN. auto. }
  assert (CW : cw (zc p) (zc (tv ts t (prv k))) (zc (tv ts t (nxt k)))).
  { destruct (NE (prv k) ltac:(destruct k; discriminate)) as [Y|Y], (NE (nxt k) ltac:(destruct k; discriminate)) as [X|X].
    + left. auto.
    + right. left. auto.
    + exfalso. exact (not_above e0 e t k AD0 LX L V X Y).
    + right. right. auto. }
  apply (filter_less _ _ _ (tv ts t (nxt k))).
  + intros v. unfold below. rewrite PJ, V2'. destruct (cw_dec _ _ _) as [H|]; [|discriminate]. intros _. destruct (cw_dec _ _ _) as [|H']; auto. elim H'. eapply cw_trans; eauto.
  + apply in_seq. specialize (RN t (nxt k) L). lia.
  + unfold below. rewrite PJ, V2'. destruct (cw_dec _ _ _) as [H|]; auto. destruct (cw_irrefl _ _ H).
  + unfold below. destruct (cw_dec _ _ _); auto.
Qed.
(** every triangle at p is reached *)
Theorem reach_all : fan ts p a None -> forall t k, (t < n)%nat -> tv ts t k = p -> reach t.
Proof using PP M C B AD0 AD1 TA LX.
  intro F. destruct (fan_end a F reach_a) as (z & kz & Rz & Lz & Vz & Nz).
  enough (G : forall m t k, (left_over t k < m)%nat -> (t < n)%nat -> tv ts t k = p -> reach t) by (intros t k; apply (G (S (left_over t k))); lia).
  induction m as [|m IH]; intros t k Lm L V; [lia|].
  destruct (tn ts t (prv k)) as [u|] eqn:Hn.
  - assert (T : turn t u) by (exists k; auto). apply (reach_back t u F L T).
    destruct (turn_less t k u L V Hn) as (k' & Lu & V' & LT). apply (IH u k'); auto. lia.
  - assert (Q : (t, prv k) = (z, prv kz)); [|injection Q as -> _; exact Rz].
    apply (bd_one _ _ _ _ _ _ B); [split; auto|split; auto|]. unfold pedge. cbn [fst snd]. rewrite !nxt_prv, V, Vz.
    rewrite (open_pos t (prv k) L Hn), (open_pos z (prv kz) Lz Nz); auto; rewrite nxt_prv; auto.
Qed.
(** the walk around p ends *)
Lemma walk_ends : forall m t k, (left_over t k < m)%nat -> (t < n)%nat -> tv ts t k = p -> forall fuel, (m < fuel)%nat ->
  exists r, find_interior fuel ts p (Some t) = Done r.
Proof using PP M C B AD0 LX.
  induction m as [|m IH]; intros t k Lm L V fuel Lf; [lia|]. destruct fuel as [|f]; [lia|]. cbn [find_interior].
  assert (Et : nth_error ts t = Some (tri_at ts t)) by (unfold tri_at; apply nth_error_nth'; exact L).
  unfold ts_get, get_unchecked. rewrite Et. cbn [rbind].
  assert (D : distinct (tri_at ts t)) by (apply (mesh_dist M); auto).
  assert (P1 : constrained_edge_cw (tri_at ts t) p = Done (tc ts t (nxt k))) by (rewrite <- V; exact (constrained_edge_cw_V (tri_at ts t) k D)).
  assert (P2 : neighbor_ccw (tri_at ts t) p = Done (tn ts t (prv k))) by (rewrite <- V; exact (neighbor_ccw_V (tri_at ts t) k D)).
  rewrite P1. cbn [rbind]. destruct (negb (tc ts t (nxt k))); [|eauto]. rewrite P2. cbn [rbind].
  destruct (tn ts t (prv k)) as [u|] eqn:Hn.
  - destruct (turn_less t k u L V Hn) as (k' & Lu & V' & LT). apply (IH u k'); auto; lia.
  - destruct f; [lia|]. cbn. eauto.
Qed.
Lemma walk_total fuel : (N + 1 < fuel)%nat -> exists r, find_interior fuel ts p (Some a) = Done r.
Proof using PP M C B AD0 AD1 TA LX.
  intro Lf. destruct a_open as (i & La & Na & Va). apply (walk_ends (S N) a (prv i)); auto; [|lia].
  unfold left_over. assert (Q : forall l, (length (filter (below a (prv i)) l) <= length l)%nat) by (induction l as [|x l IH]; cbn; [lia|]; destruct (below a (prv i) x); cbn; lia).
  specialize (Q (seq 0 N)). rewrite seq_length in Q. lia.
Qed.
End S.

(** ** the walk finds a marked edge unless the node is on no contour and the contours do not wind around it *)
Section Seed.
Context {A : Arith} {E : Exact A}.
Variable points : Points.
Hypothesis PP : proper points.
Notation N := (npts points).
Notation zc := (zc points).
Notation zk := (fun k v => scaled k (zc v)).
Notation bnd := (boundary (ps_head points) (ps_tail points)).
Variables (ts : TriangleStore) (ns : list Entry).
Hypothesis M : mesh N zc ts.
Hypothesis C : chain points ns.
Hypothesis B : bnd ts ns [] [].
Hypothesis EX : exact N ts.
Notation n := (length ts).
Notation W := (W points ts).
Variables (poly : list nat) (holes : list (list nat)).
Notation cs := (poly :: holes).
Hypothesis ND : NoDup (concat cs).
Hypothesis L3 : forall c, In c cs -> (3 <= length c)%nat.
Hypothesis RG : forall c v, In c cs -> In v c -> (v < ps_head points)%nat.
Hypothesis SIDES : forall c e, In c cs -> In e (cyc c) -> is_edge ts e.
Hypothesis MARKS : forall P, (fst P < n)%nat -> ptc ts P = true <-> exists c, In c cs /\ on c (pedge ts P).
Hypothesis NC : nocol points.
Variables (e0 e e' : Entry) (a : nat).
Hypothesis AD0 : adjacent ns e0 e.
Hypothesis AD1 : adjacent ns e e'.
Hypothesis TA : en_tri e = Some a.
Notation p := (en_pid e).

Lemma RG' c v : In c cs -> In v c -> (v < N)%nat.
Proof using PP RG. intros Ic Iv. pose proof (RG c v Ic Iv) as X. pose proof (pr_head points PP) as Y. clear - X Y. lia. Qed.
Lemma p_lt : (p < N)%nat.
Proof using PP C AD0. destruct AD0 as (j & _ & J). apply (ch_z' points ns C _ _ J). Qed.
Lemma p_tail : p <> ps_tail points.
Proof using PP C AD1.
  destruct AD1 as (j & J1 & J2). intro Q. destruct (ch_last _ _ C) as (f & F1 & F2). pose proof (ch_nodup points ns C _ _ e f J1 F1 ltac:(congruence)) as X.
  apply nth_error_lt in J2. lia.
Qed.
Lemma p_in : (p < ps_head points)%nat.
Proof using PP C AD0 AD1.
  pose proof p_lt. pose proof (p_head points PP ns C e0 e AD0). pose proof p_tail. pose proof (pr_head points PP). pose proof (pr_tail points PP). lia.
Qed.
Hypothesis HE : en_pid e0 = ps_head points.
Lemma LX : fst (zc (en_pid e0)) < fst (zc p).
Proof using PP C AD0 AD1 HE. rewrite HE. apply (pr_frame points PP p p_in). Qed.

Lemma fan_zero t c : fan ts p a None -> reach ts e a t -> In c cs -> W c t = 0 /\ forall k, tv ts t k = p -> tc ts t (nxt k) = false.
Proof using PP M C B EX ND L3 RG SIDES MARKS AD1 TA HE.
  intros F R Ic.
  assert (T : forall t t0, nth_error ts t = Some t0 -> tri_at ts t = t0 /\ (t < n)%nat).
  { intros a0 t0 H. split; [unfold tri_at; apply nth_error_nth; auto|apply nth_error_Some; congruence]. }
  assert (X : forall t, reach ts e a t -> exists k, (t < n)%nat /\ tv ts t k = p /\ tc ts t (nxt k) = false).
  { intros u Ru. pose proof (reach_fan points ts M e a u F Ru) as Fu. inversion Fu as [|? t0 k0 H1 H2 H3 H4|? t0 k0 b ? H1 H2 H3 H4 F']; subst; destruct (T _ _ H1) as [T1 L]; exists k0; unfold tv, tc; rewrite T1; auto. }
  assert (U : forall k t, (t < n)%nat -> tc ts t k = false -> kap c (pedge ts (t, k)) = 0) by (intros k u L H; apply (unmarked ts poly holes MARKS (u, k) c); auto).
  assert (K : forall t, reach ts e a t -> forall k, tv ts t k = p -> tc ts t (nxt k) = false).
  { intros u Ru k Hk. destruct (X u Ru) as (k0 & L & V & H). assert (k = k0) as -> by (apply (tv_inj (m_ccw M u L)); congruence). exact H. }
  split; [|apply K; auto].
  assert (AB := all_bounds points PP ts ns M C B EX poly holes ND L3 RG' SIDES c Ic).
  induction R as [|t u R IH (k & V & Hn)].
  - destruct (a_open points ts ns B e e' a AD1 TA) as (i & La & Na & Va). destruct (AB (a, i) La) as [Y _]. specialize (Y Na). cbn [fst] in Y. rewrite <- Y.
    apply U; auto. replace i with (nxt (prv i)) by apply nxt_prv. apply K; [constructor|exact Va].
  - destruct (X t R) as (_ & L & _). destruct (m_adj M t (prv k) u L Hn) as [j PR]. pose proof PR as (_ & Lu & _ & _ & V1 & _). rewrite nxt_prv in V1.
    change (ppaired ts (t, prv k) (u, j)) in PR. apply paired_sym in PR; change (ppaired ts (u, j) (t, prv k)) in PR.
    destruct (AB (u, j) Lu) as [_ Y]. specialize (Y _ PR). cbn [fst] in Y. rewrite IH in Y.
    rewrite U in Y; [lia|auto|]. replace j with (nxt (prv j)) by apply nxt_prv. apply K; [|congruence]. apply (reach_step ts e a t); auto. exists k. auto.
Qed.

Theorem seed_found r : fan ts p a r -> (forall c, In c cs -> ~ In p c) \/ r <> None.
Proof using PP M C B EX ND L3 RG SIDES MARKS AD0 AD1 TA HE.
  intro F. destruct r as [s|]; [right; discriminate|left]. intros c Ic Ip.
  pose proof (reach_all points PP ts ns M C B e0 e e' a AD0 AD1 TA LX F) as RA.
  assert (Z : forall t k, (t < n)%nat -> tv ts t k = p -> tc ts t (nxt k) = false).
  { intros t k L V. apply (fan_zero t c F (RA t k L V) Ic). exact V. }
  apply In_nth_error in Ip as (i & Hi). pose proof (nth_error_lt _ _ _ Hi) as Li. destruct (cyc_nth c i Li) as (x & y & H1 & H2 & H3).
  assert (x = p) as -> by congruence. apply nth_error_In in H3. assert (Iy : In y c) by (apply nth_error_In in H2; auto).
  destruct (SIDES c _ Ic H3) as ([t j] & LP & Q). cbn [fst] in LP.
  assert (MK : ptc ts (t, j) = true) by (apply MARKS; auto; exists c; split; auto; unfold on; destruct Q as [->| Q]; [left; auto|right; rewrite Q; unfold swp; cbn; auto]).
  unfold pedge in Q. cbn [fst snd] in Q. destruct Q as [Q|Q].
  - assert (V : tv ts t (nxt j) = p) by congruence. assert (Vy : tv ts t (prv j) = y) by congruence.
    destruct (tn ts t j) as [u|] eqn:Hn.
    + destruct (m_adj M t j u LP Hn) as [j' PR]. pose proof PR as (_ & Lu & _ & _ & V1 & V2).
      assert (X : tc ts u (nxt (prv j')) = false) by (apply Z; auto; congruence). rewrite nxt_prv in X.
      assert (Y : ptc ts (u, j') = true); [|unfold ptc in Y; cbn [fst snd] in Y; congruence].
      apply MARKS; auto. exists c. split; auto. right. unfold pedge, swp. cbn [fst snd]. rewrite <- V1, <- V2, V, Vy. exact H3.
    + pose proof (open_pos points PP ts ns C B e0 e AD0 t j LP Hn V) as X. rewrite Vy, HE in X. subst y. specialize (RG c _ Ic Iy). lia.
  - assert (V : tv ts t (prv j) = p) by (unfold swp in Q; cbn in Q; congruence). pose proof (Z t (prv j) LP V) as X. rewrite nxt_prv in X.
    unfold ptc in MK. cbn [fst snd] in MK. congruence.
Qed.

Theorem seed_winds r : fan ts p a r -> r <> None \/ forall c, In c cs -> wind (zk 1) c (zc p) = 0.
Proof using PP M C B EX ND L3 RG SIDES MARKS AD0 AD1 TA HE NC.
  intro F. destruct r as [s|]; [left; discriminate|right]. intros c Ic.
  pose proof (reach_all points PP ts ns M C B e0 e e' a AD0 AD1 TA LX F) as RA.
  rewrite (W_sum points PP ts ns M C B EX cs ND L3 RG' SIDES c 1 (zc p) Ic ltac:(lia)).
  destruct (Z.eq_dec (zsum (fun t => W c t * wnt (zk 1) ts (zc p) t) n) 0) as [Q|Q]; auto. exfalso.
  apply zsum_ne0 in Q as (t & L & Q). assert (W c t <> 0 /\ wnt (zk 1) ts (zc p) t <> 0) as [Q1 Q2] by (split; intro H; apply Q; rewrite H; lia).
  assert (IO : inside_or_on (zc (tv ts t I0)) (zc (tv ts t I1)) (zc (tv ts t I2)) (zc p)).
  { assert (S1 : forall v, scaled 1 (zc v) = zc v) by (intro v; unfold scaled; destruct (zc v) as [x y]; cbn [fst snd]; rewrite !Z.mul_1_l; reflexivity).
    unfold wnt in Q2. rewrite !S1 in Q2. destruct (wn3_ccw _ _ _ (zc p) (m_ccw M t L)) as (X1 & _ & X3). apply X3. destruct X1; [contradiction|auto]. }
  assert (VX : exists k, tv ts t k = p).
  { destruct (Nat.eq_dec (tv ts t I0) p); [eauto|]. destruct (Nat.eq_dec (tv ts t I1) p); [eauto|]. destruct (Nat.eq_dec (tv ts t I2) p); [eauto|]. exfalso.
    assert (G : forall i j, i <> j -> orient (zc (tv ts t i)) (zc (tv ts t j)) (zc p) <> 0).
    { intros i j Nij. apply NC; try (apply (m_range M); auto); try apply p_lt; try (intro X; apply (tv_inj (m_ccw M t L)) in X; contradiction); destruct i, j; auto; contradiction. }
    destruct IO as (O1 & O2 & O3).
    pose proof (G I0 I1 ltac:(discriminate)). pose proof (G I1 I2 ltac:(discriminate)). pose proof (G I2 I0 ltac:(discriminate)).
    destruct (a_open points ts ns B e e' a AD1 TA) as (i & La & Na & Va).
    apply (no_vertex_inside points PP ts (mkFront ns None) [] M (conj C I) B t I2 a (prv i) L La). rewrite Va. cbn [nxt prv]. unfold strictly_inside. lia. }
  destruct VX as [k V]. destruct (fan_zero t c F (RA t k L V) Ic) as [Z _]. contradiction.
Qed.
End Seed.
