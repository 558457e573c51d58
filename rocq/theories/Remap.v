(** * Remap: re-attaching front nodes to triangles after flips (map_triangle_to_nodes) *)
From Coq Require Import List Arith Bool Lia ZArith.
From Verif Require Import Base Num Shape ShapeSpec Utils Points Triangles Front Sweeper Monad Lists Exact FrontSpec Geom Mesh Rotate Setup Legal Legalize Boundary Chain.
Import ListNotations.

Section S.
Context {A : Arith} {E : Exact A}.
Variable dbg : bool.
Variable points : Points.
Hypothesis PP : proper points.
Notation N := (npts points).
Notation zc := (zc points).
Notation bnd := (boundary (ps_head points) (ps_tail points)).

(** same points on the front; only the triangle ids of the nodes may differ *)
Definition same_nodes (ns ns' : list Entry) : Prop :=
  map (fun e => (en_key e, en_pid e)) ns' = map (fun e => (en_key e, en_pid e)) ns.
Lemma same_refl ns : same_nodes ns ns. Proof using. reflexivity. Qed.
Lemma same_trans a b c : same_nodes a b -> same_nodes b c -> same_nodes a c.
Proof using. unfold same_nodes. congruence. Qed.
Lemma same_length ns ns' : same_nodes ns ns' -> length ns' = length ns.
Proof using. intro H. apply (f_equal (@length _)) in H. rewrite !map_length in H. auto. Qed.
Lemma same_nth ns ns' k e : same_nodes ns ns' -> nth_error ns k = Some e ->
  exists e', nth_error ns' k = Some e' /\ en_key e' = en_key e /\ en_pid e' = en_pid e.
Proof using.
  intros H Hk. apply (f_equal (fun l => nth_error l k)) in H. rewrite !nth_error_map, Hk in H. simpl in H.
  destruct (nth_error ns' k) as [e'|]; [|discriminate]. simpl in H. injection H as H1 H2. eauto.
Qed.
Lemma same_sym ns ns' : same_nodes ns ns' -> same_nodes ns' ns. Proof using. unfold same_nodes. congruence. Qed.
Lemma same_set ns k e t : nth_error ns k = Some e -> same_nodes ns (list_set ns k (set_tri e t)).
Proof using.
  intro H. unfold same_nodes. apply nth_ext with (d := (en_key e, en_pid e)) (d' := (en_key e, en_pid e)).
  - rewrite !map_length, list_set_length. auto.
  - intros j Hj. rewrite map_length, list_set_length in Hj. apply nth_error_nth. rewrite nth_error_map, nth_error_list_set.
    destruct (Nat.eqb_spec k j) as [<-|Nj].
    + rewrite (proj2 (Nat.ltb_lt _ _) Hj). simpl. f_equal. symmetry. apply nth_error_nth. rewrite nth_error_map, H. reflexivity.
    + destruct (nth_error_ex ns j Hj) as [x Hx]. rewrite Hx. simpl. f_equal. symmetry. apply nth_error_nth. rewrite nth_error_map, Hx. reflexivity.
Qed.

(** one pending position is written back *)
Lemma boundary_set ts ns R l r i k e : chain points ns -> bnd ts ns R ((r, i) :: l) -> bpos ts (r, i) ->
  nth_error ns k = Some e -> en_pid e = tv ts r (prv i) ->
  bnd ts (list_set ns k (set_tri e (Some r))) R l.
Proof using PP.
  intros C [B1 B2 B3 B4] BP Hk Pe. set (ns' := list_set ns k (set_tri e (Some r))).
  assert (SN : same_nodes ns ns') by (apply same_set; auto).
  assert (AD : forall x y, adjacent ns x y -> exists x' y', adjacent ns' x' y' /\ en_pid x' = en_pid x /\ en_pid y' = en_pid y).
  { intros x y (m & H1 & H2). destruct (same_nth _ _ _ _ SN H1) as (x' & X1 & _ & X2). destruct (same_nth _ _ _ _ SN H2) as (y' & Y1 & _ & Y2).
    exists x', y'. split; auto. exists m. auto. }
  constructor; auto.
  - intros P HP. destruct (B1 P HP) as [H|(x & y & H1 & H2)]; auto. right. destruct (AD x y H1) as (x' & y' & H3 & H4 & H5).
    exists x', y'. split; auto. congruence.
  - intros x y (m & H1 & H2). destruct (same_nth _ _ _ _ (same_sym _ _ SN) H1) as (x0 & X1 & _ & X2).
    destruct (same_nth _ _ _ _ (same_sym _ _ SN) H2) as (y0 & Y1 & _ & Y2).
    destruct (B2 x0 y0) as (P & HP & EP & Q); [exists m; auto|]. exists P. split; auto. split; [congruence|].
    unfold ns' in H1. rewrite nth_error_list_set in H1. destruct (Nat.eqb_spec k m) as [EQ|Nm]; [subst m|].
    + rewrite (proj2 (Nat.ltb_lt _ _) (nth_error_lt _ _ _ Hk)) in H1. injection H1 as <-. left. simpl en_tri.
      assert (P = (r, i)); [|subst P; reflexivity]. apply B3; auto.
      assert (x0 = e) by congruence. subst x0.
      destruct (B1 _ BP) as [H|(z & z' & (m' & Z1 & Z2) & H)].
      * exfalso. unfold pedge in H. cbn [fst snd] in H. injection H as _ H.
        destruct (ch_last _ _ C) as (el & L1 & L2). assert (k = length ns - 1) by (eapply ch_nodup; eauto; congruence).
        apply nth_error_lt in Y1. lia.
      * rewrite EP, H. unfold pedge in H. cbn [fst snd] in H. injection H as H5 H6.
        assert (m' = k) by (eapply ch_nodup; eauto; congruence). subst m'. f_equal; congruence.
    + assert (x0 = x) by congruence. subst x0. destruct Q as [Q|[Q|[Q|Q]]]; auto. exfalso. subst P.
      unfold pedge in EP. cbn [fst snd] in EP. injection EP as E1 E2. apply Nm. symmetry. eapply ch_nodup; eauto. congruence.
Qed.
Lemma boundary_drop ts ns R l P : bnd ts ns R (P :: l) -> ~ bpos ts P -> bnd ts ns R l.
Proof using.
  intros [B1 B2 B3 B4] NP. constructor; auto. intros x y H. destruct (B2 x y H) as (Q & H1 & H2 & [H3|[H3|[H3|H3]]]); eauto 6.
  subst Q. contradiction.
Qed.

Lemma map_nodes_wp r : forall l s R, mesh N zc (s_tris s) -> r < length (s_tris s) ->
  front_ok points (s_front s) -> bnd (s_tris s) (nodes (s_front s)) R (map (pair r) l) ->
  wp (map_nodes_loop points l (tri_at (s_tris s) r) (Some r)) s (fun _ _ => False) (fun _ s' =>
    exists af, s' = mkSw (s_tris s) af (s_result s) (s_trace s) /\ front_ok points af /\ same_nodes (nodes (s_front s)) (nodes af) /\
      bnd (s_tris s) (nodes af) R []).
Proof using PP.
  induction l as [|i l IH]; intros s R M Lr FO B; cbn [map_nodes_loop].
  - apply wp_skip. exists (s_front s). split; [destruct s; reflexivity|]. split; auto. split; [apply same_refl|exact B].
  - cbn [map] in B. change (get3 (t_neighbors (tri_at (s_tris s) r)) i) with (tn (s_tris s) r i).
    destruct (tn (s_tris s) r i) as [b|] eqn:En; cbn [tid_invalid].
    + apply wp_bind, wp_skip. apply IH; auto. eapply boundary_drop; eauto. intros [_ H]. unfold ptn in H. cbn [fst snd] in H. congruence.
    + assert (BP : bpos (s_tris s) (r, i)) by (split; auto).
      assert (D : distinct (tri_at (s_tris s) r)) by apply (mesh_dist M Lr).
      change (get3 (t_points (tri_at (s_tris s) r)) i) with (V (tri_at (s_tris s) r) i).
      assert (HE : exists k e, nth_error (nodes (s_front s)) k = Some e /\ en_pid e = tv (s_tris s) r (prv i)).
      { destruct (bd_only _ _ _ _ _ _ B _ BP) as [H|(x & y & (k & H1 & H2) & H)]; unfold pedge in H; cbn [fst snd] in H; injection H as _ H.
        - destruct (ch_last _ _ (proj1 FO)) as (e & L1 & L2). exists (length (nodes (s_front s)) - 1), e. split; auto. congruence.
        - eauto. }
      destruct HE as (k & e & Hk & Pe).
      assert (Lp : tv (s_tris s) r (prv i) < N) by (apply (m_range M); auto).
      destruct (pt_fin points PP _ Lp) as (p & Pp & Np & _).
      apply wp_bind. apply wp_bind, wp_lift. rewrite (point_cw_V _ _ D). cbn [okr].
      apply wp_bind, wp_lift. change (V (tri_at (s_tris s) r) (prv i)) with (tv (s_tris s) r (prv i)). rewrite Pp. cbn [okr].
      apply wp_bind, wp_get_front. apply wp_bind, wp_lift.
      rewrite (update_triangle_ok points PP (s_front s) _ p (Some r) k e FO Np Hk Pe). cbn [okr]. apply wp_put_front.
      set (af := mkFront _ _).
      assert (FO' : front_ok points af).
      { split; cbn [nodes af]; [apply set_tri_chain; auto; [apply FO|discriminate]|]. eapply set_tri_cache; eauto. apply FO. }
      assert (B' : bnd (s_tris s) (nodes af) R (map (pair r) l)) by (cbn [nodes af]; eapply boundary_set; eauto; apply FO).
      eapply wp_mono; [apply (IH (mkSw (s_tris s) af (s_result s) (s_trace s)) R); auto|auto|].
      cbn [s_tris s_front s_result s_trace]. intros _ s' (af' & -> & H1 & H2 & H3). exists af'. split; auto. split; auto. split; auto.
      eapply same_trans; [|exact H2]. cbn [nodes af]. apply same_set. auto.
Qed.

Lemma map_triangle_wp r s R : mesh N zc (s_tris s) -> r < length (s_tris s) ->
  front_ok points (s_front s) -> bnd (s_tris s) (nodes (s_front s)) (Some r :: R) [] ->
  wp (map_triangle_to_nodes dbg points (Some r)) s (fun _ _ => False) (fun _ s' =>
    exists af, s' = mkSw (s_tris s) af (s_result s) (s_trace s) /\ front_ok points af /\ same_nodes (nodes (s_front s)) (nodes af) /\
      bnd (s_tris s) (nodes af) R []).
Proof using PP.
  intros M Lr FO [B1 B2 B3 B4]. unfold map_triangle_to_nodes. apply wp_bind, wp_get_tris. apply wp_bind, wp_lift.
  rewrite (ts_get_at' dbg _ _ Lr). cbn [okr]. apply map_nodes_wp; auto. constructor; auto.
  intros x y H. destruct (B2 x y H) as (P & H1 & H2 & H3). exists P. split; auto. split; auto.
  destruct H3 as [H3|[[H3|H3]|[]]]; auto. right. right. injection H3 as ->. destruct P as [c k]. apply (in_map (pair c)).
  destruct k; simpl; auto.
Qed.

Lemma map_triangles_wp : forall l s R, mesh N zc (s_tris s) -> Forall (fun r => r < length (s_tris s)) l ->
  front_ok points (s_front s) -> bnd (s_tris s) (nodes (s_front s)) (map Some l ++ R) [] ->
  wp (map_triangles dbg points (map Some l)) s (fun _ _ => False) (fun _ s' =>
    exists af, s' = mkSw (s_tris s) af (s_result s) (s_trace s) /\ front_ok points af /\ same_nodes (nodes (s_front s)) (nodes af) /\
      bnd (s_tris s) (nodes af) R []).
Proof using PP.
  induction l as [|r l IH]; intros s R M F FO B; cbn [map map_triangles].
  - apply wp_skip. exists (s_front s). split; [destruct s; reflexivity|]. split; auto. split; [apply same_refl|exact B].
  - inversion F as [|? ? Lr F']; subst. apply wp_bind. eapply wp_mono; [apply (map_triangle_wp r s (map Some l ++ R)); auto|auto|].
    intros _ s1 (af & -> & H1 & H2 & H3).
    eapply wp_mono; [apply (IH (mkSw (s_tris s) af (s_result s) (s_trace s)) R); auto|auto|].
    cbn [s_tris s_front s_result s_trace]. intros _ s' (af' & -> & K1 & K2 & K3). exists af'. split; auto. split; auto. split; auto.
    eapply same_trans; eauto.
Qed.
End S.
