(** * Legalize: the legalization functions compute flips and stop *)
From Coq Require Import List Arith Bool Lia ZArith.
From Verif Require Import Base Num Shape ShapeSpec Utils Points Triangles Front Sweeper Monad Lists Exact Geom Mesh Rotate Setup Legal.
Import ListNotations.

Section S.
Context {A : Arith} {E : Exact A}.
Variable dbg : bool.
Variable points : Points.
Hypothesis PP : proper points.
Notation N := (npts points).
Notation zc := (zc points).

Lemma ts_get_at ts a s : a < length ts -> ts_get_unchecked_at dbg s ts (Some a) = Done (tri_at ts a).
Proof. intro L. unfold ts_get_unchecked_at, get_unchecked. rewrite nth_error_at by auto. reflexivity. Qed.
Lemma ts_get_at' ts a : a < length ts -> ts_get_unchecked dbg ts (Some a) = Done (tri_at ts a).
Proof. apply ts_get_at. Qed.
Lemma ts_mut_at ts a : a < length ts -> ts_get_mut_unchecked ts (Some a) = Done (tri_at ts a).
Proof. intro L. unfold ts_get_mut_unchecked, get_unchecked. rewrite nth_error_at by auto. reflexivity. Qed.

Lemma set_delaunay_ok ts a i b j s : s_tris s = ts -> mesh N zc ts -> paired ts a i b j ->
  set_delaunay_pair (Some a) (Some b) s = (Done tt, mkSw (set_del ts (a, i) (b, j)) (s_front s) (s_result s) (s_trace s)).
Proof.
  intros Es M PR. assert (La : a < length ts) by apply PR. assert (Lb : b < length ts) by apply PR.
  assert (Ne : a <> b). { intros ->. destruct PR as (_ & _ & _ & _ & O). apply (not_self (m_ccw M _ La) O). }
  unfold set_delaunay_pair, bind, get_tris, lift. rewrite Es. unfold get_mut_two_ok. unfold TriangleStore in *.
  rewrite (proj2 (Nat.eqb_neq a b) Ne), (proj2 (Nat.ltb_lt _ _) La), (proj2 (Nat.ltb_lt _ _) Lb). cbn [andb negb rassert].
  rewrite !ts_mut_at by auto.
  rewrite (common_edge_index_V (tri_at ts a) (tri_at ts b) i j); auto using (mesh_dist M).
  - destruct PR as (_ & _ & _ & _ & O1 & O2). unfold dedge. cbn [fst snd]. f_equal; auto.
  - destruct PR as (_ & _ & _ & _ & O). apply (opposed_apex (m_ccw M _ La) (m_ccw M _ Lb) O).
Qed.

(** what the loop over the edges of one triangle can have done *)
Definition rotation (s : Sweeper) (a : nat) (i : ix) (b : nat) (j : ix) (need : bool) (s' : Sweeper) : Prop :=
  flipspec N zc (s_tris s) a i b j need true (s_tris s') /\ tc (s_tris s) a i = false /\
  (0 < inc zc (s_tris s) (a, i) (b, j))%Z /\
  s_front s' = s_front s /\ s_result s' = s_result s /\
  s_trace s' = mkCb (EvRotated (Some a) (Some b)) (s_tris s) (s_front s) (s_result s) :: s_trace s.

Lemma legalize_edges_wp : forall l a s, mesh N zc (s_tris s) -> dflags zc (s_tris s) -> a < length (s_tris s) ->
  wp (legalize_edges dbg points l (Some a)) s (fun _ _ => False) (fun r s' =>
    match r with
    | None => s' = s /\ forall i Q, In i l -> ppaired (s_tris s) (a, i) Q -> tc (s_tris s) a i = false -> (inc zc (s_tris s) (a, i) Q <= 0)%Z
    | Some (ob, need) => exists i b j, ob = Some b /\ rotation s a i b j need s'
    end).
Proof.
  induction l as [|i l IH]; intros a s M D La.
  - simpl. apply wp_ret. auto.
  - cbn [legalize_edges]. set (ts := s_tris s) in *.
    assert (REC : (forall Q, ppaired ts (a, i) Q -> tc ts a i = false -> (inc zc ts (a, i) Q <= 0)%Z) ->
      wp (legalize_edges dbg points l (Some a)) s (fun _ _ => False) (fun r s' =>
      match r with
      | None => s' = s /\ forall i0 Q, In i0 (i :: l) -> ppaired ts (a, i0) Q -> tc ts a i0 = false -> (inc zc ts (a, i0) Q <= 0)%Z
      | Some (ob, need) => exists i b j, ob = Some b /\ rotation s a i b j need s'
      end)).
    { intro H. eapply wp_mono; [apply IH; auto|auto|]. intros [[ob need]|] s'; auto. intros [-> K]. split; auto.
      intros i0 Q [<-|IN]; auto. }
    apply wp_bind, wp_get_tris. apply wp_bind, wp_lift. rewrite ts_get_at' by auto. cbn [okr].
    fold ts. change (tri_is_constrained (tri_at ts a) i) with (tc ts a i). change (tri_is_delaunay (tri_at ts a) i) with (td ts a i).
    change (get3 (t_neighbors (tri_at ts a)) i) with (tn ts a i). change (get3 (t_points (tri_at ts a)) i) with (V (tri_at ts a) i).
    destruct (tc ts a i) eqn:Ec; cbn [orb]; [apply REC; intros; discriminate|].
    destruct (td ts a i) eqn:Ed; [apply REC; intros Q PQ _; apply D; auto|].
    destruct (tn ts a i) as [b|] eqn:En; cbn [tid_invalid].
    2:{ apply REC. intros Q (_ & _ & X & _). cbn [fst snd] in X. congruence. }
    destruct (m_adj M a i b La En) as [j PR]. assert (Lb : b < length ts) by apply PR.
    pose proof PR as (_ & _ & _ & _ & O1 & O2).
    assert (Da : distinct (tri_at ts a)) by apply (mesh_dist M La). assert (Db : distinct (tri_at ts b)) by apply (mesh_dist M Lb).
    apply wp_bind, wp_lift. rewrite ts_get_at' by auto. cbn [okr].
    apply wp_bind, wp_lift. rewrite (opposite_point_V (tri_at ts a) (tri_at ts b) i j Da Db O2). cbn [okr].
    assert (R1 : V (tri_at ts a) i < N) by (apply (m_range M); auto).
    assert (R2 : V (tri_at ts a) (nxt i) < N) by (apply (m_range M); auto).
    assert (R3 : V (tri_at ts a) (prv i) < N) by (apply (m_range M); auto).
    assert (R4 : V (tri_at ts b) j < N) by (apply (m_range M); auto).
    destruct (pt_fin points PP _ R1) as (pa & Pa & _ & Fa & Za). destruct (pt_fin points PP _ R2) as (pb & Pb & _ & Fb & Zb).
    destruct (pt_fin points PP _ R3) as (pc & Pc & _ & Fc & Zc_). destruct (pt_fin points PP _ R4) as (pd & Pd & _ & Fd & Zd).
    apply wp_bind, wp_lift. rewrite Pa. cbn [okr].
    apply wp_bind, wp_lift. rewrite (point_ccw_V _ _ Da). cbn [okr]. apply wp_bind, wp_lift. rewrite Pb. cbn [okr].
    apply wp_bind, wp_lift. rewrite (point_cw_V _ _ Da). cbn [okr]. apply wp_bind, wp_lift. rewrite Pc. cbn [okr].
    apply wp_bind, wp_lift. rewrite Pd. cbn [okr].
    rewrite in_circle_exact by auto. rewrite Za, Zb, Zc_, Zd.
    change (incircle (zc (V (tri_at ts a) i)) (zc (V (tri_at ts a) (nxt i))) (zc (V (tri_at ts a) (prv i))) (zc (V (tri_at ts b) j)))
      with (inc zc ts (a, i) (b, j)).
    destruct (Z.ltb_spec 0 (inc zc ts (a, i) (b, j))) as [Hp|Hp].
    2:{ apply REC. intros [b' j'] PQ _. change (paired ts a i b' j') in PQ.
        destruct (paired_unique (m_ccw M _ La) (m_ccw M _ Lb) PR PQ) as [-> ->]. exact Hp. }
    apply wp_bind, wp_emit. apply wp_bind. unfold wp at 1.
    assert (T1 := proj1 (tccw_at i) (m_ccw M _ La)). assert (T2 := proj1 (tccw_at j) (m_ccw M _ Lb)).
    rewrite <- O1, <- O2 in T2. unfold ccw3 in T1, T2. cbn [fst snd inc] in Hp.
    destruct (incircle_convex _ _ _ _ T1 T2 Hp) as [X1 X2].
    assert (C1 : ccw3 zc (tv ts a (prv i)) (tv ts a i) (tv ts b j)). { unfold ccw3. rewrite <- orient_rot. exact X1. }
    assert (C2 : ccw3 zc (tv ts a (nxt i)) (tv ts b j) (tv ts a i)). { unfold ccw3. rewrite <- orient_rot. exact X2. }
    destruct (has_side N zc ts a (prv i) M La) as [o1 S1]. destruct (has_side N zc ts a (nxt i) M La) as [o2 S2].
    destruct (has_side N zc ts b (prv j) M Lb) as [o3 S3]. destruct (has_side N zc ts b (nxt j) M Lb) as [o4 S4].
    set (s1 := mkSw ts (s_front s) (s_result s) (mkCb (EvRotated (Some a) (Some b)) ts (s_front s) (s_result s) :: s_trace s)).
    match goal with |- context [rotate_triangle_pair dbg ?x1 ?x2 ?x3 ?x4 ?x5] =>
      change (rotate_triangle_pair dbg x1 x2 x3 x4 x5) with (rotate_triangle_pair dbg (Some a) (tv ts a i) (Some b) (tv ts b j) s1) end.
    rewrite (rotate_ok N zc ts a i b j M PR C1 C2 o1 o2 o3 o4 S1 S2 S3 S4 dbg s1 eq_refl).
    pose proof (flip_is_flip N zc ts a i b j o1 o2 o3 o4 M PR C1 C2 S1 S2 S3 S4) as FS.
    apply wp_bind. unfold wp at 1. rewrite (set_delaunay_ok (flipped ts a i b j o1 o2 o3 o4) a i b j (mkSw (flipped ts a i b j o1 o2 o3 o4) (s_front s1) (s_result s1) (s_trace s1)) eq_refl (fs_mesh _ _ _ _ _ _ _ _ _ _ FS) (fs_diag _ _ _ _ _ _ _ _ _ _ FS)).
    apply wp_ret. exists i, b, j. split; auto. unfold rotation. cbn [s_tris s_front s_result s_trace]. split; [exact (set_del_flip N zc ts a i b j _ _ FS)|]. repeat (split; [solve [auto]|]). reflexivity.
Qed.

(** the loop, with an invariant K that flips and steps preserve *)
Section Loop.
Variable K : list tid -> Sweeper -> Prop.
Hypothesis K_step : forall R s t, K R s ->
  K R (mkSw (s_tris s) (s_front s) (s_result s) (mkCb (EvLegalizeStep t) (s_tris s) (s_front s) (s_result s) :: s_trace s)).
Hypothesis K_rot : forall R s a i b j need s', K R s -> rotation s a i b j need s' ->
  K (if need then R ++ [Some a; Some b] else R) s'.
(** a count of the flips made so far, with a ceiling *)
Variables (rank : nat -> TriangleStore -> Prop) (cap : nat).
Hypothesis K_rank : forall R s a i b j need s' m, K R s -> mesh N zc (s_tris s) -> rotation s a i b j need s' ->
  rank m (s_tris s) -> rank (S m) (s_tris s').
Hypothesis rank_cap : forall m ts, rank m ts -> 2 * m <= cap.

Lemma legalize_loop_wp : forall fuel queue R P s,
  mesh N zc (s_tris s) -> dflags zc (s_tris s) -> delaunay_but zc (queue ++ P) (s_tris s) ->
  Forall (fun a => a < length (s_tris s)) queue -> K R s ->
  wp (legalize_loop dbg points fuel (map Some queue) R) s
    (fun f s' => f = FFuel /\ (forall m, rank m (s_tris s) -> fuel + 2 * m <= cap + length queue) /\ exists R', K R' s')
    (fun R' s' => mesh N zc (s_tris s') /\ dflags zc (s_tris s') /\ delaunay_but zc P (s_tris s') /\
       length (s_tris s') = length (s_tris s) /\ (potential zc (s_tris s') <= potential zc (s_tris s))%Z /\ K R' s').
Proof using K_step K_rot K_rank rank_cap PP.
  induction fuel as [|f IH]; intros queue R P s M D DB LQ HK.
  { apply wp_fuel. split; auto. split; [|eauto]. intros m Hm. pose proof (rank_cap _ _ Hm). lia. }
  destruct queue as [|a queue]; cbn [map legalize_loop].
  { apply wp_ret. split; [exact M|]. split; [exact D|]. split; [exact DB|]. split; [auto|]. split; [lia|auto]. }
  inversion LQ as [|? ? La LQ']; subst.
  apply wp_bind. eapply wp_mono; [apply legalize_edges_wp; auto|contradiction|].
  intros r s1 H. cbv beta in H. apply wp_bind, wp_emit.
  destruct r as [[ob need]|].
  - destruct H as (i & b & j & -> & RT). pose proof RT as (FS & Ec & Hp & Ef & Er & Et).
    pose proof (fs_paired _ _ _ _ _ _ _ _ _ _ FS) as PR. pose proof (fs_len _ _ _ _ _ _ _ _ _ _ FS) as LL.
    pose proof (flip_potential _ _ _ _ _ _ _ _ _ _ FS) as PHI.
    change (Some b :: Some a :: map Some queue) with (map Some (b :: a :: queue)).
    assert (HK1 := K_step _ _ (Some a) (K_rot _ _ _ _ _ _ _ _ HK RT)).
    eapply wp_mono; [apply (IH (b :: a :: queue) (if need then R ++ [Some a; Some b] else R) P); cbn [s_tris]|..].
    + apply (fs_mesh _ _ _ _ _ _ _ _ _ _ FS).
    + eapply flip_dflags; eauto. intros; lia.
    + intros x y B. destruct (flip_delaunay_but _ _ _ _ _ _ _ _ _ _ FS _ DB x y B) as [X|X]; simpl in *; tauto.
    + unfold TriangleStore in *. rewrite LL. repeat constructor; auto; apply PR.
    + exact HK1.
    + cbn [s_tris]. intros f0 s' (-> & H & HR). split; auto. split; [|exact HR]. intros m Hm. simpl length in *. specialize (H (S m) (K_rank _ _ _ _ _ _ _ _ _ HK M RT Hm)). lia.
    + cbn [s_tris]. intros R' s' (H1 & H2 & H3 & H4 & H5 & H6). split; [exact H1|]. split; [exact H2|]. split; [exact H3|]. split; [exact (eq_trans H4 LL)|]. split; [lia|auto].
  - destruct H as [-> H].
    eapply wp_mono; [apply (IH queue R P); cbn [s_tris]; auto|..].
    + intros x y B.
      assert (NB : forall x y, bad zc (s_tris s) x y -> fst x <> a).
      { intros [c k] y0 B0 E0. cbn in E0. subst c. destruct B0 as (B1 & B2 & B3 & B4).
        assert (inc zc (s_tris s) (a, k) y0 <= 0)%Z; [|lia]. apply H; auto. destruct k; simpl; auto. }
      assert (X1 := NB _ _ B). assert (X2 := NB _ _ (bad_sym _ _ _ _ B)).
      destruct (DB x y B) as [X|X]; simpl in X; destruct X as [X|X]; try congruence; auto.
    + cbn [s_tris]. intros f0 s' (-> & H0 & HR). split; auto. split; [|exact HR]. intros m Hm. specialize (H0 m Hm). simpl length. lia.
    + cbn [s_tris]. intros R' s' H0. exact H0.
Qed.
End Loop.
End S.
