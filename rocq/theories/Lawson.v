(** * Lawson: an edge that legalization flips away never comes back

    Over each point of the mesh lift the triangle that contains it to the paraboloid.  A flip lowers the lifted
    surface, strictly at the crossing of the two diagonals; so the old diagonal is above the surface ever after.
    The height above |p|^2 is, for a triangle, incircle / orient, and for a segment the product [power] below. *)
From Coq Require Import List Arith Bool Lia ZArith.
From Verif Require Import Base Num Shape ShapeSpec Utils Points Triangles Front Sweeper Monad Lists Exact F64 Geom Mesh Rotate Setup Legal Legalize Boundary Chain FrontSpec FrontInv Winding Cover CoverRun.
Import ListNotations.
Local Open Scope Z_scope.

(** for p on the segment x y: (distance to x) times (distance to y) *)
Definition power (p x y : zpt) : Z := (fst p - fst x) * (fst y - fst p) + (snd p - snd x) * (snd y - snd p).
Definition closed (a b c p : zpt) : Prop := inside_or_on a b c p.

Lemma power_tri a x y p : incircle a x y p = orient a x y * power p x y - orient x y p * power a x y.
Proof. unfold power. zpts. ring. Qed.
Lemma lift3 x y u v p : incircle v y u p * orient x y u = incircle x y u p * orient v y u - incircle x y u v * orient y u p.
Proof. zpts. ring. Qed.
Lemma bary4 x y a b c p : orient a b c * orient x y p = orient b c p * orient x y a + orient c a p * orient x y b + orient a b p * orient x y c.
Proof. zpts. ring. Qed.

Lemma o_yy v y : orient v y y = 0. Proof. zpts. ring. Qed.
Lemma o_xx x v : orient x v x = 0. Proof. zpts. ring. Qed.
Lemma o_rev u v p : orient v u p = - orient u v p. Proof. zpts. ring. Qed.
Lemma ic_rot a b c d : incircle c a b d = incircle a b c d. Proof. zpts. ring. Qed.

(** ** a flip lowers the surface: old triangle (u, x, y), new triangles (y, u, v) and (x, v, u) *)
Lemma lower u x y v p w : 0 < orient u x y -> 0 < orient v y x -> 0 < orient y u v -> 0 < orient x v u -> 0 < incircle u x y v ->
  closed u x y p -> incircle u x y p < orient u x y * w ->
  closed y u v p /\ incircle y u v p < orient y u v * w \/ closed x v u p /\ incircle x v u p < orient x v u * w.
Proof.
  intros O1 O2 N1 N2 IC (C1 & C2 & C3) H. destruct (Z_le_gt_dec 0 (orient u v p)) as [S|S]; [left|right].
  - split.
    + split; [exact C3|]. split; [exact S|]. pose proof (bary4 v y u x y p) as B.
      pose proof (o_yy v y) as E1. rewrite E1 in B. pose proof (eq_sym (orient_rot v y u)) as E2. rewrite E2 in B.
      assert (0 <= orient u x y * orient v y p) by (rewrite B; assert (0 <= orient x y p * orient y u v) by (apply Z.mul_nonneg_nonneg; lia); assert (0 <= orient y u p * orient v y x) by (apply Z.mul_nonneg_nonneg; lia); lia).
      apply Z.mul_nonneg_cancel_l in H0; auto.
    + pose proof (lift3 x y u v p) as L.
      assert (E1 : incircle v y u p = incircle y u v p) by (first [apply orient_rot|apply orient_rot'|apply incircle_rot|apply ic_rot]). assert (E2 : incircle x y u p = incircle u x y p) by (first [apply orient_rot|apply orient_rot'|apply incircle_rot|apply ic_rot]).
      assert (E3 : incircle x y u v = incircle u x y v) by (first [apply orient_rot|apply orient_rot'|apply incircle_rot|apply ic_rot]). assert (E4 : orient x y u = orient u x y) by (first [apply orient_rot|apply orient_rot'|apply incircle_rot|apply ic_rot]). assert (E5 : orient v y u = orient y u v) by (first [apply orient_rot|apply orient_rot'|apply incircle_rot|apply ic_rot]).
      rewrite E1, E2, E3, E4, E5 in L. assert (0 <= incircle u x y v * orient y u p) by (apply Z.mul_nonneg_nonneg; lia).
      assert (incircle u x y p * orient y u v < orient u x y * w * orient y u v) by (apply Z.mul_lt_mono_pos_r; assumption).
      apply (Z.mul_lt_mono_pos_r (orient u x y)); [exact O1|]. lia.
  - split.
    + split; [|split].
      * pose proof (bary4 x v u x y p) as B. pose proof (o_xx x v) as E1. rewrite E1 in B.
        pose proof (eq_sym (orient_rot x v y)) as E2. rewrite E2 in B.
        assert (0 <= orient u x y * orient x v p) by (rewrite B; assert (0 <= orient x y p * orient x v u) by (apply Z.mul_nonneg_nonneg; lia); assert (0 <= orient u x p * orient v y x) by (apply Z.mul_nonneg_nonneg; lia); lia).
        apply Z.mul_nonneg_cancel_l in H0; auto.
      * pose proof (o_rev u v p) as E1. lia.
      * exact C1.
    + pose proof (lift3 y u x v p) as L.
      assert (E1 : incircle v u x p = incircle x v u p) by (first [apply orient_rot|apply orient_rot'|apply incircle_rot|apply ic_rot]). assert (E2 : incircle y u x p = incircle u x y p) by (first [apply orient_rot|apply orient_rot'|apply incircle_rot|apply ic_rot]).
      assert (E3 : incircle y u x v = incircle u x y v) by (first [apply orient_rot|apply orient_rot'|apply incircle_rot|apply ic_rot]). assert (E4 : orient y u x = orient u x y) by (first [apply orient_rot|apply orient_rot'|apply incircle_rot|apply ic_rot]). assert (E5 : orient v u x = orient x v u) by (first [apply orient_rot|apply orient_rot'|apply incircle_rot|apply ic_rot]).
      rewrite E1, E2, E3, E4, E5 in L. assert (0 <= incircle u x y v * orient u x p) by (apply Z.mul_nonneg_nonneg; lia).
      assert (incircle u x y p * orient x v u < orient u x y * w * orient x v u) by (apply Z.mul_lt_mono_pos_r; assumption).
      apply (Z.mul_lt_mono_pos_r (orient u x y)); [exact O1|]. lia.
Qed.

(** ** the crossing of the diagonals *)
Definition mixp (a b : Z) (x y : zpt) : zpt := (a * fst x + b * fst y, a * snd x + b * snd y).
Lemma mix_orient a b c d x y : orient (scaled (a + b) c) (scaled (a + b) d) (mixp a b x y) = (a + b) * (a * orient c d x + b * orient c d y).
Proof. unfold mixp, scaled. zpts. ring. Qed.
Lemma mix_power a b x y : power (mixp a b x y) (scaled (a + b) x) (scaled (a + b) y) = a * b * ((fst x - fst y) * (fst x - fst y) + (snd x - snd y) * (snd x - snd y)).
Proof. unfold power, mixp, scaled. destruct x, y. cbn [fst snd]. ring. Qed.
Lemma cross_power u x y v : let a := orient x v u in let b := orient y u v in
  power (mixp b a x y) (scaled (b + a) x) (scaled (b + a) y) - power (mixp b a x y) (scaled (b + a) u) (scaled (b + a) v) = (b + a) * incircle u x y v.
Proof. intros a b. subst a b. unfold power, mixp, scaled. zpts. ring. Qed.
Lemma sq_pos (x y u : zpt) : orient u x y <> 0 -> 0 < (fst x - fst y) * (fst x - fst y) + (snd x - snd y) * (snd x - snd y).
Proof.
  intro H. destruct (Z.eq_dec (fst x) (fst y)) as [E1|E1], (Z.eq_dec (snd x) (snd y)) as [E2|E2].
  - exfalso. apply H. zpts. subst. ring.
  - assert (0 < (snd x - snd y) * (snd x - snd y)) by nia. nia.
  - assert (0 < (fst x - fst y) * (fst x - fst y)) by nia. nia.
  - assert (0 < (fst x - fst y) * (fst x - fst y)) by nia. nia.
Qed.
Lemma crossing u x y v : 0 < orient u x y -> 0 < orient v y x -> 0 < orient y u v -> 0 < orient x v u -> 0 < incircle u x y v ->
  exists k p, 0 < k /\ orient (scaled k x) (scaled k y) p = 0 /\ 0 < power p (scaled k x) (scaled k y) /\
    closed (scaled k y) (scaled k u) (scaled k v) p /\
    incircle (scaled k y) (scaled k u) (scaled k v) p < orient (scaled k y) (scaled k u) (scaled k v) * power p (scaled k x) (scaled k y).
Proof.
  intros O1 O2 N1 N2 IC. set (a := orient x v u) in *. set (b := orient y u v) in *. exists (b + a), (mixp b a x y). split; [lia|].
  assert (Z1 : orient (scaled (b + a) u) (scaled (b + a) v) (mixp b a x y) = 0).
  { rewrite mix_orient, (orient_rot y u v), (o_rev v u x), (orient_rot x v u). fold a b. ring. }
  split; [rewrite mix_orient, o_yy, o_xx; ring|]. split; [rewrite mix_power; apply Z.mul_pos_pos; [apply Z.mul_pos_pos; assumption|apply (sq_pos x y u); lia]|]. split.
  - split; [|split].
    + rewrite mix_orient, o_xx, (orient_rot' u x y). rewrite ?Z.mul_0_r, ?Z.add_0_r, ?Z.add_0_l. apply Z.mul_nonneg_nonneg; [lia|]. apply Z.mul_nonneg_nonneg; lia.
    + rewrite Z1. lia.
    + rewrite mix_orient, o_yy. rewrite ?Z.mul_0_r, ?Z.add_0_r, ?Z.add_0_l. apply Z.mul_nonneg_nonneg; [lia|]. apply Z.mul_nonneg_nonneg; lia.
  - rewrite power_tri, Z1. replace (0 * _) with 0 by ring. rewrite Z.sub_0_r. apply Z.mul_lt_mono_pos_l.
    + rewrite orient_scaled. fold b. apply Z.mul_pos_pos; [apply Z.mul_pos_pos; lia|assumption].
    + pose proof (cross_power u x y v) as C. cbv zeta in C. fold a b in C. assert (0 < (b + a) * incircle u x y v) by (apply Z.mul_pos_pos; lia). lia.
Qed.

(** ** a point of the open edge is in no other triangle *)
Lemma between_id u x y p : ((fst x - fst y) * (fst x - fst y) + (snd x - snd y) * (snd x - snd y)) * orient y u p =
  (power p x y + ((fst y - fst p) * (fst y - fst p) + (snd y - snd p) * (snd y - snd p))) * orient u x y - orient x y p * ((fst y - fst x) * (fst y - fst u) + (snd y - snd x) * (snd y - snd u)).
Proof. unfold power. zpts. ring. Qed.

Lemma between_side u x y p : 0 < orient u x y -> orient x y p = 0 -> 0 < power p x y -> 0 < orient y u p /\ 0 < orient u x p.
Proof.
  intros O Z0 PW. assert (S1 : 0 < orient y u p).
  { pose proof (between_id u x y p) as B. rewrite Z0 in B. pose proof (sq_pos x y u ltac:(lia)) as SQ. pose proof (Z.square_nonneg (fst y - fst p)). pose proof (Z.square_nonneg (snd y - snd p)).
    match type of B with ?l * ?o = ?r * ?q - _ => assert (0 < r * q) by (apply Z.mul_pos_pos; lia); apply (Z.mul_pos_cancel_l l o SQ); lia end. }
  split; [exact S1|].
  assert (PW' : 0 < power p y x) by (replace (power p y x) with (power p x y) by (unfold power; ring); exact PW).
  pose proof (between_id u y x p) as B. assert (E1 : orient y x p = 0) by (rewrite o_rev, Z0; reflexivity). rewrite E1 in B.
  assert (E2 : orient u y x = - orient u x y) by (rewrite <- (orient_rot u y x), o_rev, (orient_rot u x y); reflexivity). assert (E3 : orient x u p = - orient u x p) by apply o_rev. rewrite E2, E3 in B.
  pose proof (sq_pos y x u ltac:(lia)) as SQ. pose proof (Z.square_nonneg (fst x - fst p)). pose proof (Z.square_nonneg (snd x - snd p)).
  match type of B with ?l * - ?o = ?r * - ?q - _ => assert (0 < r * q) by (apply Z.mul_pos_pos; lia); apply (Z.mul_pos_cancel_l l o SQ); lia end.
Qed.

(** the point moved from p towards the point of the triangle t0 t1 t2 with weights w0 w1 w2 *)
Definition toward (m w0 w1 w2 : Z) (p t0 t1 t2 : zpt) : zpt :=
  (m * fst p + w0 * fst t0 + w1 * fst t1 + w2 * fst t2, m * snd p + w0 * snd t0 + w1 * snd t1 + w2 * snd t2).
Lemma toward_orient m w0 w1 w2 p t0 t1 t2 a b : let s := m + w0 + w1 + w2 in
  orient (scaled s a) (scaled s b) (toward m w0 w1 w2 p t0 t1 t2) = s * (m * orient a b p + (w0 * orient a b t0 + w1 * orient a b t1 + w2 * orient a b t2)).
Proof. intro s. subst s. unfold toward, scaled. zpts. ring. Qed.
Lemma big_pos s m o r : 0 < s -> 0 < o -> Z.abs r < m -> 0 < s * (m * o + r).
Proof. intros S O H. apply Z.mul_pos_pos; [exact S|]. assert (m <= m * o) by nia. lia. Qed.
(** p on the open edge x y of u x y, and in t0 t1 t2: points near p are in both, or in t0 t1 t2 and across the edge *)
Lemma near_edge u x y p t0 t1 t2 w0 w1 w2 : 0 < orient u x y -> orient x y p = 0 -> 0 < power p x y -> 0 < orient t0 t1 t2 -> closed t0 t1 t2 p -> 0 < w0 -> 0 < w1 -> 0 < w2 ->
  0 < w0 * orient x y t0 + w1 * orient x y t1 + w2 * orient x y t2 ->
  exists s q, 0 < s /\ strictly_inside (scaled s u) (scaled s x) (scaled s y) q /\ strictly_inside (scaled s t0) (scaled s t1) (scaled s t2) q.
Proof.
  intros O Z0 PW OT (T1 & T2 & T3) W0 W1 W2 S. destruct (between_side u x y p O Z0 PW) as [S1 S2].
  set (f := fun a b => w0 * orient a b t0 + w1 * orient a b t1 + w2 * orient a b t2).
  set (m := 1 + Z.abs (f y u) + Z.abs (f u x)). exists (m + w0 + w1 + w2), (toward m w0 w1 w2 p t0 t1 t2).
  assert (SP : 0 < m + w0 + w1 + w2) by (unfold m; lia). split; [exact SP|]. unfold strictly_inside. rewrite !toward_orient. split.
  - split; [|split].
    + apply big_pos; [exact SP|exact S2|fold (f u x); unfold m; lia].
    + rewrite Z0. apply Z.mul_pos_pos; [exact SP|lia].
    + apply big_pos; [exact SP|exact S1|fold (f y u); unfold m; lia].
  - assert (MP : 0 <= m) by (unfold m; lia). clearbody m. rewrite !o_yy, !o_xx, (orient_rot t0 t1 t2), (orient_rot' t0 t1 t2).
    assert (NN : forall o, 0 <= o -> 0 <= m * o) by (intros; apply Z.mul_nonneg_nonneg; assumption). pose proof (NN _ T1). pose proof (NN _ T2). pose proof (NN _ T3).
    assert (PQ : forall w, 0 < w -> 0 < w * orient t0 t1 t2) by (intros; apply Z.mul_pos_pos; assumption). pose proof (PQ _ W0). pose proof (PQ _ W1). pose proof (PQ _ W2).
    split; [|split]; apply Z.mul_pos_pos; lia.
Qed.
Lemma weights o0 o1 o2 : o0 <> 0 \/ o1 <> 0 \/ o2 <> 0 -> exists w0 w1 w2, 0 < w0 /\ 0 < w1 /\ 0 < w2 /\ w0 * o0 + w1 * o1 + w2 * o2 <> 0.
Proof.
  intro H. destruct (Z.eq_dec (o0 + o1 + o2) 0) as [Q|Q]; [|exists 1, 1, 1; lia].
  destruct (Z.eq_dec o0 0) as [Q0|Q0]; [|exists 2, 1, 1; lia]. exists 1, 2, 1. lia.
Qed.
Lemma not_all_on x y t0 t1 t2 : x <> y -> orient t0 t1 t2 <> 0 -> orient x y t0 <> 0 \/ orient x y t1 <> 0 \/ orient x y t2 <> 0.
Proof.
  intros NE O. destruct (Z.eq_dec (orient x y t0) 0) as [Q0|]; auto. destruct (Z.eq_dec (orient x y t1) 0) as [Q1|]; auto. destruct (Z.eq_dec (orient x y t2) 0) as [Q2|]; auto. exfalso.
  pose proof (bary4 x y t0 t1 t2) as B. apply NE.
  pose proof (B (fst x, snd x + 1)) as B1. pose proof (B (fst x + 1, snd x)) as B2. rewrite Q0, Q1, Q2 in B1, B2.
  assert (E1 : orient x y (fst x, snd x + 1) = fst y - fst x) by (clear; zpts; ring). assert (E2 : orient x y (fst x + 1, snd x) = snd x - snd y) by (clear; zpts; ring).
  rewrite E1 in B1. rewrite E2 in B2. assert (orient t0 t1 t2 * (fst y - fst x) = 0) by lia. assert (orient t0 t1 t2 * (snd x - snd y) = 0) by lia.
  apply Z.mul_eq_0 in H as [H|H]; [lia|]. apply Z.mul_eq_0 in H0 as [H0|H0]; [lia|]. destruct x, y. cbn [fst snd] in *. f_equal; lia.
Qed.

(** ** meshes *)
(** triangle t, read from its corner i, contains p and is there lower than w above |p|^2 *)
Definition low (z : nat -> zpt) (ts : TriangleStore) (t : nat) (i : ix) (p : zpt) (w : Z) : Prop :=
  closed (z (tv ts t i)) (z (tv ts t (nxt i))) (z (tv ts t (prv i))) p /\
  incircle (z (tv ts t i)) (z (tv ts t (nxt i))) (z (tv ts t (prv i))) p < orient (z (tv ts t i)) (z (tv ts t (nxt i))) (z (tv ts t (prv i))) * w.
Lemma low_at z ts t i j p w : low z ts t i p w -> low z ts t j p w.
Proof.
  assert (R : forall i, low z ts t i p w -> low z ts t (nxt i) p w).
  { clear i. intros i ((C1 & C2 & C3) & H). unfold low. rewrite nxt_nxt, prv_nxt, incircle_rot, orient_rot. split; [split; [exact C2|split; [exact C3|exact C1]]|exact H]. }
  destruct i, j; intro H; try exact H; first [exact (R _ H)|exact (R _ (R _ H))].
Qed.
(** the segment between x and y is above the surface somewhere *)
Definition dead (z : nat -> zpt) (ts : TriangleStore) (e : nat * nat) : Prop :=
  exists k p t i, 0 < k /\ (t < length ts)%nat /\ orient (scaled k (z (fst e))) (scaled k (z (snd e))) p = 0 /\
    0 < power p (scaled k (z (fst e))) (scaled k (z (snd e))) /\ low (fun v => scaled k (z v)) ts t i p (power p (scaled k (z (fst e))) (scaled k (z (snd e)))).
Lemma dead_swap z ts x y : dead z ts (x, y) -> dead z ts (y, x).
Proof.
  intros (k & p & t & i & K & L & O & W & H). cbn [fst snd] in *. exists k, p, t, i. cbn [fst snd].
  assert (E : power p (scaled k (z y)) (scaled k (z x)) = power p (scaled k (z x)) (scaled k (z y))) by (unfold power; ring). rewrite E, o_rev, O. auto.
Qed.
Lemma inc_scaled k a b c d : incircle (scaled k a) (scaled k b) (scaled k c) (scaled k d) = k * k * (k * k) * incircle a b c d.
Proof. unfold scaled. zpts. ring. Qed.

Section Flip.
Variables (N : nat) (zc : nat -> zpt) (ts : TriangleStore) (a : nat) (i : ix) (b : nat) (j : ix) (need del : bool) (ts' : TriangleStore).
Hypothesis M : mesh N zc ts.
Hypothesis FS : flipspec N zc ts a i b j need del ts'.
Hypothesis IC : 0 < inc zc ts (a, i) (b, j).
Let u := tv ts a i.
Let x := tv ts a (nxt i).
Let y := tv ts a (prv i).
Let v := tv ts b j.
Lemma quad : 0 < orient (zc u) (zc x) (zc y) /\ 0 < orient (zc v) (zc y) (zc x) /\ 0 < orient (zc y) (zc u) (zc v) /\ 0 < orient (zc x) (zc v) (zc u) /\ 0 < incircle (zc u) (zc x) (zc y) (zc v).
Proof using M FS IC.
  pose proof (fs_paired _ _ _ _ _ _ _ _ _ _ FS) as (La & Lb & _ & _ & Q1 & Q2). pose proof (fs_len _ _ _ _ _ _ _ _ _ _ FS) as LL.
  pose proof (proj1 (tccw_at i) (m_ccw M a La)) as T1. pose proof (proj1 (tccw_at j) (m_ccw M b Lb)) as T2. rewrite <- Q1, <- Q2 in T2.
  pose proof (fs_mesh _ _ _ _ _ _ _ _ _ _ FS) as M'. unfold TriangleStore in *.
  pose proof (proj1 (tccw_at i) (m_ccw M' a ltac:(lia))) as T3. pose proof (proj1 (tccw_at j) (m_ccw M' b ltac:(lia))) as T4.
  destruct (fs_a _ _ _ _ _ _ _ _ _ _ FS) as (A1 & A2 & A3). destruct (fs_b _ _ _ _ _ _ _ _ _ _ FS) as (B1 & B2 & B3).
  unfold TriangleStore in *. rewrite A1, A2, A3 in T3. rewrite B1, B2, B3 in T4. split; [exact T1|]. split; [exact T2|]. split; [exact T3|]. split; [exact T4|]. exact IC.
Qed.
Lemma dead_flip e : dead zc ts e -> dead zc ts' e.
Proof using M FS IC.
  intros (k & p & t & i0 & K & L & O & W & H). pose proof (fs_len _ _ _ _ _ _ _ _ _ _ FS) as LL.
  pose proof (fs_paired _ _ _ _ _ _ _ _ _ _ FS) as (La & Lb & _ & _ & Q1 & Q2).
  destruct (fs_a _ _ _ _ _ _ _ _ _ _ FS) as (A1 & A2 & A3). destruct (fs_b _ _ _ _ _ _ _ _ _ _ FS) as (B1 & B2 & B3).
  destruct quad as (O1 & O2 & O3 & O4 & O5).
  assert (SC : forall a b c, 0 < orient a b c -> 0 < orient (scaled k a) (scaled k b) (scaled k c)) by (intros; rewrite orient_scaled; repeat apply Z.mul_pos_pos; assumption).
  assert (SI : 0 < incircle (scaled k (zc u)) (scaled k (zc x)) (scaled k (zc y)) (scaled k (zc v))) by (rewrite inc_scaled; repeat apply Z.mul_pos_pos; assumption).
  assert (NEW : low (fun v => scaled k (zc v)) ts' a i p (power p (scaled k (zc (fst e))) (scaled k (zc (snd e)))) \/ low (fun v => scaled k (zc v)) ts' b j p (power p (scaled k (zc (fst e))) (scaled k (zc (snd e)))) -> dead zc ts' e).
  { unfold TriangleStore in *. intros [X|X]; [exists k, p, a, i|exists k, p, b, j]; unfold TriangleStore in *; rewrite LL; auto. }
  destruct (Nat.eq_dec t a) as [->|Na].
  - apply NEW. apply (low_at _ _ _ _ i) in H. unfold low in *. cbv beta in *. unfold TriangleStore in *. rewrite A1, A2, A3, B1, B2, B3. destruct H as [H1 H2].
    exact (lower _ _ _ _ p _ (SC _ _ _ O1) (SC _ _ _ O2) (SC _ _ _ O3) (SC _ _ _ O4) SI H1 H2).
  - destruct (Nat.eq_dec t b) as [->|Nb].
    + apply NEW. apply (low_at _ _ _ _ j) in H. unfold low in *. cbv beta in *. unfold TriangleStore in *. rewrite A1, A2, A3, B1, B2, B3. rewrite <- Q1, <- Q2 in H. destruct H as [H1 H2]. apply or_comm.
      assert (SI' : 0 < incircle (scaled k (zc v)) (scaled k (zc y)) (scaled k (zc x)) (scaled k (zc u))) by (rewrite incircle_across; exact SI).
      exact (lower _ _ _ _ p _ (SC _ _ _ O2) (SC _ _ _ O1) (SC _ _ _ O4) (SC _ _ _ O3) SI' H1 H2).
    + exists k, p, t, i0. pose proof (fun c => fs_out _ _ _ _ _ _ _ _ _ _ FS t c Na Nb) as FO. unfold low in *. unfold TriangleStore in *. rewrite !FO, LL. auto.
Qed.
Lemma dead_new : dead zc ts' (x, y).
Proof using M FS IC.
  destruct quad as (O1 & O2 & O3 & O4 & O5). destruct (crossing _ _ _ _ O1 O2 O3 O4 O5) as (k & p & K & Z0 & W & C & H).
  pose proof (fs_len _ _ _ _ _ _ _ _ _ _ FS) as LL. pose proof (fs_paired _ _ _ _ _ _ _ _ _ _ FS) as (La & Lb & _ & _ & _).
  destruct (fs_a _ _ _ _ _ _ _ _ _ _ FS) as (A1 & A2 & A3). exists k, p, a, i. cbn [fst snd]. split; [exact K|]. unfold low, TriangleStore in *. rewrite A1, A2, A3, LL. auto.
Qed.
End Flip.

(** an inner edge of a mesh without overlaps is not above the surface *)
Lemma not_dead N zc ts a i b j : mesh N zc ts -> paired ts a i b j ->
  (forall k p t u, 0 < k -> (t < length ts)%nat -> (u < length ts)%nat -> inside (fun v => scaled k (zc v)) ts t p -> inside (fun v => scaled k (zc v)) ts u p -> t = u) ->
  ~ dead zc ts (tv ts a (nxt i), tv ts a (prv i)).
Proof.
  intros M (La & Lb & _ & _ & Q1 & Q2) ONCE (k & p & t & i0 & K & L & Z0 & W & H). cbn [fst snd] in *.
  assert (SC : forall t i, (t < length ts)%nat -> 0 < orient (scaled k (zc (tv ts t i))) (scaled k (zc (tv ts t (nxt i)))) (scaled k (zc (tv ts t (prv i))))).
  { intros t' i' L'. rewrite orient_scaled. repeat apply Z.mul_pos_pos; try assumption. exact (proj1 (tccw_at i') (m_ccw M t' L')). }
  pose proof (SC a i La) as Ta. pose proof (SC b j Lb) as Tb. pose proof (SC t i0 L) as Tt. rewrite <- Q1, <- Q2 in Tb.
  set (x := scaled k (zc (tv ts a (nxt i)))) in *. set (y := scaled k (zc (tv ts a (prv i)))) in *.
  assert (Z0' : orient y x p = 0) by (rewrite o_rev, Z0; reflexivity). assert (W' : power p y x = power p x y) by (unfold power; ring).
  assert (NE : x <> y) by (intro Q; rewrite Q, o_yy in Ta; lia).
  assert (Na : t <> a). { intros ->. apply (low_at _ _ _ _ i) in H. destruct H as [_ H]. cbv beta in H. fold x y in H. rewrite power_tri, Z0 in H. lia. }
  assert (Nb : t <> b). { intros ->. apply (low_at _ _ _ _ j) in H. destruct H as [_ H]. cbv beta in H. rewrite <- Q1, <- Q2 in H. fold x y in H. rewrite power_tri, Z0', W' in H. lia. }
  destruct H as [C _]. cbv beta in C.
  set (t0 := scaled k (zc (tv ts t i0))) in *. set (t1 := scaled k (zc (tv ts t (nxt i0)))) in *. set (t2 := scaled k (zc (tv ts t (prv i0)))) in *.
  assert (SS : forall s q c l, strictly_inside (scaled s (scaled k (zc (tv ts c l)))) (scaled s (scaled k (zc (tv ts c (nxt l))))) (scaled s (scaled k (zc (tv ts c (prv l))))) q -> inside (fun v => scaled (s * k) (zc v)) ts c q).
  { intros s q c l X. assert (E : forall v, scaled s (scaled k v) = scaled (s * k) v) by (intro; unfold scaled; cbn [fst snd]; f_equal; ring). rewrite !E in X.
    unfold inside, strictly_inside in *. destruct l; cbn [nxt prv] in X; tauto. }
  destruct (weights _ _ _ (not_all_on x y t0 t1 t2 NE ltac:(lia))) as (w0 & w1 & w2 & P0 & P1 & P2 & NZ).
  destruct (Z_lt_le_dec 0 (w0 * orient x y t0 + w1 * orient x y t1 + w2 * orient x y t2)) as [S|S].
  - destruct (near_edge _ x y p t0 t1 t2 w0 w1 w2 Ta Z0 W Tt C P0 P1 P2 S) as (s & q & SP & I1' & I2'). apply Na.
    apply (ONCE (s * k) q t a); auto; [apply Z.mul_pos_pos; assumption|apply (SS _ _ _ i0); exact I2'|apply (SS _ _ _ i); exact I1'].
  - assert (S' : 0 < w0 * orient y x t0 + w1 * orient y x t1 + w2 * orient y x t2) by (rewrite !(o_rev x y); lia).
    destruct (near_edge _ y x p t0 t1 t2 w0 w1 w2 Tb Z0' ltac:(lia) Tt C P0 P1 P2 S') as (s & q & SP & I1' & I2'). apply Nb.
    apply (ONCE (s * k) q t b); auto; [apply Z.mul_pos_pos; assumption|apply (SS _ _ _ i0); exact I2'|apply (SS _ _ _ j)]. rewrite <- Q1, <- Q2. exact I1'.
Qed.

(** ** counting: m flips have left 2m ordered pairs of vertices above the surface *)
Definition rank (N : nat) (z : nat -> zpt) (m : nat) (ts : TriangleStore) : Prop :=
  exists l, NoDup l /\ length l = (2 * m)%nat /\ forall e, In e l -> (fst e < N)%nat /\ (snd e < N)%nat /\ dead z ts e.
Lemma rank_0 N z ts : rank N z 0 ts.
Proof. exists []. split; [constructor|]. split; [reflexivity|intros e []]. Qed.
Lemma dead_ne z ts x : ~ dead z ts (x, x).
Proof.
  intros (k & p & t & i & _ & _ & _ & W & _). cbn [fst snd] in W. unfold power in W.
  pose proof (Z.square_nonneg (fst p - fst (scaled k (z x)))). pose proof (Z.square_nonneg (snd p - snd (scaled k (z x)))). lia.
Qed.
Lemma rank_cap N z m ts : rank N z m ts -> (2 * m <= N * N - N)%nat.
Proof.
  intros (l & ND & L & H). set (d := map (fun x => (x, x)) (seq 0 N)).
  assert (Dl : forall e, In e l -> ~ In e d). { intros e I1' I2'. apply in_map_iff in I2' as (x & <- & _). apply (dead_ne z ts x). apply H. exact I1'. }
  assert (NDd : NoDup d) by (apply FinFun.Injective_map_NoDup; [intros x y Q; injection Q; auto|apply seq_NoDup]).
  assert (IN : incl (l ++ d) (list_prod (seq 0 N) (seq 0 N))).
  { intros [x y] I'. apply in_prod_iff. rewrite !in_seq. apply in_app_or in I' as [I'|I']; [apply H in I'; cbn [fst snd] in I'; lia|].
    apply in_map_iff in I' as (w & Q & I'). injection Q as <- <-. apply in_seq in I'. lia. }
  assert (NDA : NoDup (l ++ d)).
  { clear - ND NDd Dl. induction l as [|e l IH]; [exact NDd|]. inversion ND; subst. cbn [app]. constructor.
    - intro I'. apply in_app_or in I' as [I'|I']; [contradiction|]. exact (Dl e (or_introl eq_refl) I').
    - apply IH; [assumption|]. intros e' I'. apply Dl. right. exact I'. }
  pose proof (NoDup_incl_length NDA IN) as LE. rewrite app_length, prod_length, !seq_length in LE. unfold d in LE. rewrite map_length, seq_length in LE. lia.
Qed.
Lemma rank_flip N zc ts a i b j need del ts' m : mesh N zc ts -> flipspec N zc ts a i b j need del ts' -> 0 < inc zc ts (a, i) (b, j) ->
  (forall k p t u, 0 < k -> (t < length ts)%nat -> (u < length ts)%nat -> inside (fun v => scaled k (zc v)) ts t p -> inside (fun v => scaled k (zc v)) ts u p -> t = u) ->
  rank N zc m ts -> rank N zc (S m) ts'.
Proof.
  intros M FS IC ONCE (l & ND & L & H). pose proof (fs_paired _ _ _ _ _ _ _ _ _ _ FS) as PR.
  pose proof (not_dead N zc ts a i b j M PR ONCE) as NX. pose proof (dead_new N zc ts a i b j need del ts' M FS IC) as DN.
  set (x := tv ts a (nxt i)) in *. set (y := tv ts a (prv i)) in *.
  assert (La : (a < length ts)%nat) by apply PR. pose proof (m_range M a (nxt i) La) as Rx. pose proof (m_range M a (prv i) La) as Ry. fold x in Rx. fold y in Ry.
  assert (NE : x <> y) by (intro Q; rewrite Q in DN; exact (dead_ne _ _ _ DN)).
  exists ((x, y) :: (y, x) :: l). split; [|split].
  - constructor; [intros [Q|I']; [injection Q; congruence|apply NX, H, I']|]. constructor; [|exact ND]. intro I'. apply NX, dead_swap, H, I'.
  - cbn [length]. lia.
  - intros e [<-|[<-|I']]; cbn [fst snd]; auto using dead_swap. destruct (H e I') as (H1 & H2 & H3). split; [exact H1|]. split; [exact H2|]. exact (dead_flip N zc ts a i b j need del ts' M FS IC e H3).
Qed.
