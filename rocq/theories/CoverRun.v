(** * CoverRun: the covering theorem and edge uniqueness for the mesh shown at a callback *)
From Coq Require Import List Arith Bool Lia ZArith Psatz Permutation.
From Verif Require Import Base Num Shape ShapeSpec Utils Points Triangles Front Sweeper Cdt Lists Monad Exact
  FrontSpec Geom Mesh Rotate Setup Legal Legalize Boundary Chain Winding Cover.
Import ListNotations.
Local Open Scope Z_scope.

(** the plane with the unit divided by k *)
Definition scaled (k : Z) (z : zpt) : zpt := (k * fst z, k * snd z).
Lemma orient_scaled k a b c : orient (scaled k a) (scaled k b) (scaled k c) = k * k * orient a b c.
Proof. unfold scaled. zpts. ring. Qed.

Lemma mesh_scaled N zc ts k : 0 < k -> mesh N zc ts -> mesh N (fun v => scaled k (zc v)) ts.
Proof.
  intros K M. constructor; [apply (m_range M)| |apply (m_adj M)].
  intros a L. unfold tccw, ccw3. rewrite orient_scaled. pose proof (m_ccw M a L) as H. unfold tccw, ccw3 in H. nia.
Qed.

Section S.
Context {A : Arith} {E : Exact A}.
Variable points : Points.
Hypothesis PP : proper points.
Notation N := (npts points).
Notation zc := (zc points).

Lemma chain_vs ns : chain points ns -> let vs := map en_pid ns in
  NoDup vs /\ nth_error vs 0 = Some (ps_head points) /\ nth_error vs (length vs - 1) = Some (ps_tail points) /\ monotone zc vs.
Proof using PP.
  intros C vs. unfold vs.
  assert (NE : forall k v, nth_error (map en_pid ns) k = Some v -> exists e, nth_error ns k = Some e /\ en_pid e = v).
  { intros k v H. rewrite nth_error_map in H. destruct (nth_error ns k) as [e|]; [|discriminate]. simpl in H. exists e. split; congruence. }
  split; [|split; [|split]].
  - apply NoDup_nth_error. intros i j L Q. rewrite map_length in L. destruct (nth_error_ex _ _ L) as [e He].
    assert (Hi : nth_error (map en_pid ns) i = Some (en_pid e)) by (rewrite nth_error_map, He; auto). rewrite Hi in Q. symmetry in Q.
    destruct (NE _ _ Q) as (e' & He' & Q'). eapply (ch_nodup points ns C); eauto.
  - destruct (ch_first _ _ C) as (e & H & Q). rewrite nth_error_map, H. simpl. congruence.
  - destruct (ch_last _ _ C) as (e & H & Q). rewrite map_length, nth_error_map, H. simpl. congruence.
  - intros i j v v' L H1 H2. destruct (NE _ _ H1) as (e & He & <-), (NE _ _ H2) as (e' & He' & <-).
    destruct (Nat.eq_dec i j) as [->|Nij]; [rewrite He in He'; injection He' as ->; lia|].
    pose proof (ch_lt points ns C i j e e' ltac:(lia) He He') as X. unfold xlt in X. lia.
Qed.
Lemma monotone_scaled k vs : 0 < k -> monotone zc vs -> monotone (fun v => scaled k (zc v)) vs.
Proof. intros K H i j v v' L H1 H2. specialize (H i j v v' L H1 H2). unfold scaled. cbn [fst]. nia. Qed.

Section Cb.
Variables (ts : TriangleStore) (af : AdvancingFront) (R0 : list tid).
Hypothesis M : mesh N zc ts.
Hypothesis FO : front_ok points af.
Hypothesis B : boundary (ps_head points) (ps_tail points) ts (nodes af) R0 [].

Lemma once k p t u : 0 < k -> (t < length ts)%nat -> (u < length ts)%nat ->
  inside (fun v => scaled k (zc v)) ts t p -> inside (fun v => scaled k (zc v)) ts u p -> t = u.
Proof using PP M FO B.
  intros K. destruct (chain_vs _ (proj1 FO)) as (H1 & H2 & H3 & H4).
  apply (cover_once N _ ts _ _ (nodes af) R0 (mesh_scaled _ _ _ _ K M) B H1 H2 H3 (monotone_scaled _ _ K H4)).
Qed.

(** two counter-clockwise triangles on the same side of an edge have a common interior point *)
Lemma common_point a b c d : 0 < orient a b c -> 0 < orient a b d -> exists k p, 0 < k /\
  strictly_inside (scaled k a) (scaled k b) (scaled k c) p /\ strictly_inside (scaled k a) (scaled k b) (scaled k d) p.
Proof using.
  intros H1 H2. set (K := 1 + Z.abs (orient b d c) + Z.abs (orient d a c)).
  exists (2 * K + 1), (K * fst a + K * fst b + fst c, K * snd a + K * snd b + snd c).
  assert (HK : 0 < K) by lia. split; [lia|].
  assert (F : forall u v, orient (scaled (2 * K + 1) u) (scaled (2 * K + 1) v) (K * fst a + K * fst b + fst c, K * snd a + K * snd b + snd c) =
     (2 * K + 1) * (K * orient u v a + K * orient u v b + orient u v c)) by (intros u v; unfold scaled; zpts; ring).
  unfold strictly_inside. rewrite !F.
  rewrite !(proj1 (proj2 (orient_diag _ _))), !(proj2 (proj2 (orient_diag _ _))).
  rewrite (orient_rot a b c), (orient_rot' a b c), (orient_rot a b d), (orient_rot' a b d).
  assert (G1 : 0 < K * orient a b d + orient b d c) by (assert (K <= K * orient a b d) by nia; lia).
  assert (G2 : 0 < K * orient a b d + orient d a c) by (assert (K <= K * orient a b d) by nia; lia).
  assert (G3 : 0 < K * orient a b c) by nia.
  repeat split; apply Z.mul_pos_pos; lia.
Qed.

Lemma inside_rot zc' t i p : strictly_inside (zc' (tv ts t (nxt i))) (zc' (tv ts t (prv i))) (zc' (tv ts t i)) p -> inside zc' ts t p.
Proof using. unfold inside, strictly_inside. destruct i; cbn [nxt prv]; tauto. Qed.

(** no two triangles have the same directed edge *)
Lemma edge_unique P Q : (fst P < length ts)%nat -> (fst Q < length ts)%nat -> pedge ts P = pedge ts Q -> P = Q.
Proof using PP M FO B.
  intros LP LQ H. destruct P as [t i], Q as [u j]. cbn [fst] in *. unfold pedge in H. cbn [fst snd] in H. injection H as H1 H2.
  pose proof (m_ccw M t LP) as Ct. pose proof (m_ccw M u LQ) as Cu. apply (tccw_at (nxt i)) in Ct. apply (tccw_at (nxt j)) in Cu.
  unfold ccw3 in *. rewrite nxt_nxt, prv_nxt in Ct, Cu. rewrite H1, H2 in Ct.
  destruct (common_point _ _ _ _ Ct Cu) as (k & p & K & S1 & S2).
  assert (t = u) as <-.
  { apply (once k p); auto.
    - apply (inside_rot (fun v => scaled k (zc v)) t i). cbn beta. rewrite H1, H2. exact S1.
    - apply (inside_rot (fun v => scaled k (zc v)) u j). exact S2. }
  apply (tv_inj (m_ccw M t LP)) in H1. f_equal. destruct i, j; simpl in H1; congruence.
Qed.
(** ... and an edge without neighbour is the edge of no other triangle *)
Lemma edge_twin P Q : (fst P < length ts)%nat -> (fst Q < length ts)%nat -> pedge ts Q = swp (pedge ts P) -> ppaired ts P Q.
Proof using PP M FO B.
  intros LP LQ H. destruct (chain_vs _ (proj1 FO)) as (N1 & N2 & N3 & N4).
  assert (X : forall P Q, (fst P < length ts)%nat -> (fst Q < length ts)%nat -> pedge ts Q = swp (pedge ts P) -> ptn ts Q <> None -> ppaired ts P Q).
  { clear P Q LP LQ H. intros P Q LP LQ H HN. destruct (ptn ts Q) as [a|] eqn:HQ; [|congruence].
    destruct (m_adj M (fst Q) (snd Q) a LQ HQ) as [k PR]. assert ((a, k) = P) as <-; [|apply paired_sym; exact PR].
    apply edge_unique; auto; [apply PR|]. rewrite (twin_edge ts Q (a, k) PR), H. unfold swp. cbn [fst snd]. destruct (pedge ts P); reflexivity. }
  destruct (ptn ts Q) as [a|] eqn:HQ; [apply X; auto; congruence|].
  destruct (ptn ts P) as [a|] eqn:HP.
  - apply paired_sym. apply X; auto; [|congruence]. rewrite H. unfold swp. cbn [fst snd]. destruct (pedge ts P); reflexivity.
  - exfalso. pose proof (boundary_edges N zc ts _ _ (nodes af) R0 M B N1 N2) as PM.
    assert (BE : forall P, (fst P < length ts)%nat -> ptn ts P = None -> In (pedge ts P) ((ps_head points, ps_tail points) :: map swp (pairs (map en_pid (nodes af))))).
    { intros P' L' H'. apply (Permutation_in _ PM), in_map, filter_In. split; [apply in_positions, in_seq; simpl; lia|].
      unfold is_bpos. rewrite (proj2 (twin_none N zc ts P' M L') H'). reflexivity. }
    pose proof (BE P LP HP) as IP. pose proof (BE Q LQ HQ) as IQ. rewrite H in IQ. clear BE PM.
    assert (OB : (0 < orient (zc (ps_head points)) (zc (ps_tail points)) (zc (ps_head points)))%Z -> False) by (rewrite (proj1 (proj2 (orient_diag _ _))); lia).
    assert (HT : nth_error (map en_pid (nodes af)) 0 <> Some (ps_tail points)).
    { rewrite N2. intro Q'. injection Q' as Q'. pose proof (pr_head points PP). pose proof (pr_tail points PP). lia. }
    assert (ID : forall i j v, nth_error (map en_pid (nodes af)) i = Some v -> nth_error (map en_pid (nodes af)) j = Some v -> i = j).
    { intros i j v Hi Hj. apply (proj1 (NoDup_nth_error _) N1); [eapply nth_error_lt; eauto|congruence]. }
    destruct (pedge ts P) as [u v]. unfold swp in IQ, IP. cbn [fst snd] in IQ, IP.
    assert (NB : forall x y, In (x, y) (map (fun p : nat * nat => (snd p, fst p)) (pairs (map en_pid (nodes af)))) -> exists k, nth_error (map en_pid (nodes af)) k = Some y /\ nth_error (map en_pid (nodes af)) (S k) = Some x).
    { intros x y Hxy. apply in_map_iff in Hxy as ([x' y'] & Qx & Hx). cbn [fst snd] in Qx. injection Qx as -> ->. apply in_pairs in Hx. exact Hx. }
    assert (TW : forall k, nth_error (map en_pid (nodes af)) k = Some (ps_head points) -> nth_error (map en_pid (nodes af)) (S k) = Some (ps_tail points) -> False).
    { intros k K1 K2. pose proof (ID _ _ _ K1 N2) as ->. pose proof (ID _ _ _ K2 N3) as Q1.
      pose proof (m_ccw M (fst P) LP) as CP. unfold tccw, ccw3 in CP. destruct (common_point _ _ _ _ CP CP) as (s & p & K & S1 & _).
      destruct (cover_only N _ ts _ _ (nodes af) R0 (mesh_scaled _ _ _ _ K M) B N1 N2 N3 (monotone_scaled _ _ K N4) p (fst P) LP S1) as (_ & O1 & (v1 & v2 & IN & _ & O2)).
      apply in_pairs in IN as (k & K3 & K4). pose proof (nth_error_lt _ _ _ K4).
      assert (k = 0)%nat as -> by lia. clear - N2 K2 K3 K4 O1 O2. rewrite N2 in K3. rewrite K2 in K4. injection K3 as <-. injection K4 as <-. lia. }
    destruct IP as [IP|IP], IQ as [IQ|IQ].
    + injection IP as <- <-. injection IQ as IQ. apply HT. congruence.
    + injection IP as <- <-. apply NB in IQ as (k & K1 & K2). eauto.
    + injection IQ as <- <-. apply NB in IP as (k & K1 & K2). eauto.
    + apply NB in IP as (k & K1 & K2), IQ as (k' & K3 & K4). pose proof (ID _ _ _ K1 K4). pose proof (ID _ _ _ K2 K3). lia.
Qed.
End Cb.
End S.
