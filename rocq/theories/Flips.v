(** * Flips: constraint flips and marking on a consistent mesh *)
From Coq Require Import List Arith Bool Lia ZArith.
From Verif Require Import Base Num Shape ShapeSpec Utils Points Triangles Front Sweeper Cdt Lists Monad Traverse Exact
  FrontSpec Geom Mesh Rotate Setup Legal Legalize Boundary Chain Remap Attach FrontInv Disc Good Marks.
Import ListNotations.

Section S.
Context {A : Arith} {E : Exact A}.
Variable dbg : bool.
Variable points : Points.
Hypothesis PP : proper points.
Notation N := (npts points).
Notation zc := (zc points).
Notation bnd := (boundary (ps_head points) (ps_tail points)).
Notation Kst := (Kst points).
Notation J := (J points).
Notation Good := (Good points).
Notation nocol := (nocol points).

Lemma flip_pair_wp D Q a i b j s : Kst D [] Q (s_tris s) (s_front s) -> paired (s_tris s) a i b j ->
  ccw3 zc (tv (s_tris s) a (prv i)) (tv (s_tris s) a i) (tv (s_tris s) b j) ->
  ccw3 zc (tv (s_tris s) a (nxt i)) (tv (s_tris s) b j) (tv (s_tris s) a i) ->
  wp (flip_pair dbg points (Some a) (tv (s_tris s) a i) (Some b) (tv (s_tris s) b j)) s (fun _ _ => False) (fun _ s' =>
    exists ts' af' need, s' = mkSw ts' af' (s_result s) (s_trace s) /\ flipspec N zc (s_tris s) a i b j need false ts' /\
      Kst D [] (b :: a :: Q) ts' af' /\ same_nodes (nodes (s_front s)) (nodes af')).
Proof using PP.
  intros [M DF DB B FO W AG DI] PR C1 C2. set (ts := s_tris s) in *.
  assert (La : a < length ts) by apply PR. assert (Lb : b < length ts) by apply PR.
  destruct (has_side N zc ts a (prv i) M La) as [o1 S1]. destruct (has_side N zc ts a (nxt i) M La) as [o2 S2].
  destruct (has_side N zc ts b (prv j) M Lb) as [o3 S3]. destruct (has_side N zc ts b (nxt j) M Lb) as [o4 S4].
  pose proof (flip_is_flip N zc ts a i b j o1 o2 o3 o4 M PR C1 C2 S1 S2 S3 S4) as FS.
  unfold flip_pair. apply wp_bind. unfold wp at 1. rewrite (rotate_ok N zc ts a i b j M PR C1 C2 o1 o2 o3 o4 S1 S2 S3 S4 dbg s eq_refl).
  set (need := isNone o1 || isNone o2 || isNone o3 || isNone o4) in *. set (ts' := flipped ts a i b j o1 o2 o3 o4) in *.
  pose proof (fs_mesh _ _ _ _ _ _ _ _ _ _ FS) as M'. pose proof (fs_len _ _ _ _ _ _ _ _ _ _ FS) as LL.
  pose proof (boundary_flip _ _ N zc ts a i b j need false ts' _ [] M FS B) as B'.
  assert (D' : dflags zc ts') by (eapply flip_dflags; eauto; discriminate).
  assert (DB' : delaunay_but zc (b :: a :: Q) ts') by (eapply flip_delaunay_but; eauto).
  assert (AG' : nocol -> flags_agree ts') by (intro NC; apply (proj1 (fs_agree _ _ _ _ _ _ _ _ _ _ FS (AG NC)))).
  assert (DI' : disc points D ts') by (eapply (disc_flip points PP D); [exact M|apply FO|exact B|exact FS|exact DI]).
  destruct need.
  - assert (La' : a < length ts') by (unfold TriangleStore in *; lia). assert (Lb' : b < length ts') by (unfold TriangleStore in *; lia).
    cbn [app] in B'.
    apply wp_bind. eapply wp_mono; [apply (map_triangle_wp dbg points PP a (mkSw ts' (s_front s) (s_result s) (s_trace s)) [Some b]); auto|auto|].
    cbn [s_tris s_front s_result s_trace]. intros ? s1 (af1 & -> & F1 & SN1 & B1).
    eapply wp_mono; [apply (map_triangle_wp dbg points PP b (mkSw ts' af1 (s_result s) (s_trace s)) []); auto|auto|].
    cbn [s_tris s_front s_result s_trace]. intros ? s2 (af2 & -> & F2 & SN2 & B2).
    exists ts', af2, true. split; auto. split; [exact FS|]. assert (SN := same_trans _ _ _ SN1 SN2). split; [|exact SN].
    constructor; auto. eapply within_same; eauto.
  - apply wp_skip. exists ts', (s_front s), false. split; auto. split; [exact FS|]. split; [|apply same_refl]. constructor; auto.
Qed.

Lemma mark_flipped_wp D Q a i b j ep eq s : Kst D [] Q (s_tris s) (s_front s) -> paired (s_tris s) a i b j ->
  pedge (s_tris s) (a, i) = (eq, ep) -> pedge (s_tris s) (b, j) = (ep, eq) ->
  wp (mark_flipped (Some a) (Some b) ep eq) s (fun _ _ => False) (fun _ s' =>
    exists ts', s' = mkSw ts' (s_front s) (s_result s) (s_trace s) /\ marked_more (s_tris s) ts' /\ Kst D [] Q ts' (s_front s) /\ marked_edge ts' ep eq /\ only ep eq (s_tris s) ts').
Proof using.
  intros K PR E1 E2. pose proof K as [M DF DB B FO W AG DI]. set (ts := s_tris s) in *.
  assert (La : a < length ts) by apply PR. assert (Lb : b < length ts) by apply PR.
  assert (Ne : a <> b). { intros ->. destruct PR as (_ & _ & _ & _ & O). apply (not_self (m_ccw M _ La) O). }
  unfold mark_flipped. apply wp_bind, wp_get_tris. apply wp_bind, wp_lift. fold ts. rewrite ts_mut_at by auto. cbn [okr]. cbv zeta.
  assert (X1 : set_constrained_for_edge (tri_at ts a) ep eq = tri_set_constrained (tri_at ts a) i true).
  { unfold set_constrained_for_edge. unfold pedge in E1. cbn [fst snd] in E1. injection E1 as <- <-. unfold tv.
    rewrite (proj2 (edge_index_V (tri_at ts a) i (mesh_dist M La))). reflexivity. }
  rewrite X1. cbn [ts_put]. change (list_set ts a (tri_set_constrained (tri_at ts a) i true)) with (set_con ts (a, i)).
  assert (Lb1 : b < length (set_con ts (a, i))) by (unfold set_con; rewrite list_set_length; auto).
  assert (AB : tri_at (set_con ts (a, i)) b = tri_at ts b).
  { rewrite set_con_at by auto. destruct (Nat.eqb_spec a b); congruence. }
  apply wp_bind, wp_lift. rewrite ts_mut_at by auto. cbn [okr].
  assert (X2 : set_constrained_for_edge (tri_at ts b) ep eq = tri_set_constrained (tri_at ts b) j true).
  { unfold set_constrained_for_edge. unfold pedge in E2. cbn [fst snd] in E2. injection E2 as <- <-. unfold tv.
    rewrite (proj1 (edge_index_V (tri_at ts b) j (mesh_dist M Lb))). reflexivity. }
  rewrite AB, X2. apply wp_put_tris. rewrite <- AB. cbn [ts_put].
  change (list_set (set_con ts (a, i)) b (tri_set_constrained (tri_at (set_con ts (a, i)) b) j true)) with (set_con (set_con ts (a, i)) (b, j)).
  pose proof (set_con_more _ (a, i) La) as M1. pose proof (set_con_more _ (b, j) Lb1) as M2. pose proof (more_trans _ _ _ M1 M2) as M3.
  exists (set_con (set_con ts (a, i)) (b, j)). split; auto. split; auto. split; [|split].
  - eapply more_Kst; eauto. intro NC. apply (set_two_agree points); auto.
  - exists (a, i). split; [rewrite (al_len _ _ (mm_alike _ _ M3)); exact La|]. split; [right; rewrite (more_pedge _ _ _ M3); auto|].
    apply (mm_tc _ _ M2). rewrite set_con_tc by auto. destruct (pos_dec (a, i) (a, i)); congruence.
  - apply only_set2; auto.
Qed.

Lemma mark_collinear_wp D Q a i s : Kst D [] Q (s_tris s) (s_front s) -> a < length (s_tris s) -> ~ nocol ->
  wp (mark_collinear (Some a) i) s (fun _ _ => False) (fun t s' => t = tri_set_constrained (tri_at (s_tris s) a) i true /\
    exists ts', s' = mkSw ts' (s_front s) (s_result s) (s_trace s) /\ marked_more (s_tris s) ts' /\ Kst D [] Q ts' (s_front s)).
Proof using.
  intros K La NC. unfold mark_collinear. apply wp_bind, wp_get_tris. apply wp_bind, wp_lift. rewrite ts_mut_at by auto. cbn [okr]. cbv zeta.
  apply wp_bind, wp_put_tris. apply wp_ret. split; auto. cbn [ts_put].
  change (list_set (s_tris s) a (tri_set_constrained (tri_at (s_tris s) a) i true)) with (set_con (s_tris s) (a, i)).
  pose proof (set_con_more _ (a, i) La) as M1. exists (set_con (s_tris s) (a, i)). split; auto. split; auto. eapply more_Kst; eauto. tauto.
Qed.

(** ** the three mutually recursive functions of a constraint insertion *)
Lemma wp_try {T U} (r : res T) (k : T -> M U) s (F : failure -> Sweeper -> Prop) (Q : U -> Sweeper -> Prop) : (forall f, F f s) ->
  (forall x, r = Done x -> wp (k x) s F Q) -> wp (bind (lift r) k) s F Q.
Proof using. intros Hi H. apply wp_bind, wp_lift. destruct r; simpl; auto. Qed.

(** the state between two steps: the triangles with possibly bad edges are queued *)
Definition EP (D : list nat) (n : nat) (ns : list Entry) (queue : list tid) (s : Sweeper) : Prop :=
  exists Qn, queue = map Some Qn /\ J s /\ Good (s_trace s) /\ Kst D [] Qn (s_tris s) (s_front s) /\
    Forall (fun r => r < n) Qn /\ length (s_tris s) = n /\ same_nodes ns (nodes (s_front s)).

Lemma more_EP D n ns queue s ts' : marked_more (s_tris s) ts' -> (nocol -> flags_agree (s_tris s) -> flags_agree ts') -> EP D n ns queue s ->
  EP D n ns queue (mkSw ts' (s_front s) (s_result s) (s_trace s)).
Proof using.
  intros MM FA (Qn & -> & HJ & HG & K & FQ & L & SN). exists Qn. split; auto. split; [exact HJ|]. split; [exact HG|].
  split; [|split; [exact FQ|split; [exact (eq_trans (al_len _ _ (mm_alike _ _ MM)) L)|exact SN]]].
  cbn [s_tris s_front]. eapply more_Kst; eauto. intro NC. apply (FA NC). apply (k_agree _ _ _ _ _ _ K NC).
Qed.
Lemma EP_J D n ns queue s : EP D n ns queue s -> J s.
Proof using. intros (Qn & _ & HJ & _). exact HJ. Qed.
Lemma EP_mesh D n ns queue s : EP D n ns queue s -> mesh N zc (s_tris s).
Proof using. intros (Qn & _ & _ & _ & K & _). apply K. Qed.
Lemma EP_len D n ns queue s : EP D n ns queue s -> length (s_tris s) = n.
Proof using. intros (Qn & _ & _ & _ & _ & _ & L & _). exact L. Qed.
Lemma EP_app D n ns queue s l : Forall (fun r => r < n) l -> EP D n ns queue s -> EP D n ns (queue ++ map Some l) s.
Proof using.
  intros FL (Qn & -> & HJ & HG & K & FQ & L & SN). exists (Qn ++ l). split; [rewrite map_app; reflexivity|]. split; auto. split; auto.
  split; [|split; [apply Forall_app; auto|auto]]. destruct K as [M DF DB B FO W AG DI]. constructor; auto.
  intros x y BD. destruct (DB x y BD) as [X|X]; [left|right]; apply in_or_app; auto.
Qed.

Lemma not_valid (a : tid) (ts : TriangleStore) (t : InnerTriangle) st : ts_get_unchecked_at dbg st ts a = Done t ->
  exists n, a = Some n /\ n < length ts /\ t = tri_at ts n.
Proof using.
  destruct a as [n|]; [|unfold ts_get_unchecked_at; case dbg; discriminate].
  intro H. destruct (Nat.lt_ge_cases n (length ts)) as [L|L].
  - exists n. split; auto. split; auto. rewrite ts_get_at in H by auto. congruence.
  - exfalso. revert H. unfold ts_get_unchecked_at, get_unchecked. rewrite (proj2 (nth_error_None ts n) L). discriminate.
Qed.

Lemma pt_done id p : pt points id = Done p -> id < N /\ finp p /\ zp p = zc id.
Proof using PP.
  intro H. assert (L : id < N).
  { unfold pt, get_point_uncheck, get_unchecked in H. destruct (nth_error (ps_points points) id) as [q|] eqn:EQ; [|discriminate]. apply nth_error_Some. congruence. }
  destruct (pt_fin points PP id L) as (q & Q1 & _ & Q2 & Q3). rewrite Q1 in H. injection H as <-. auto.
Qed.
Lemma orient_2d_done a b c o : finp a -> finp b -> finp c -> orient_2d dbg a b c = Done o ->
  o = match (orient (zp a) (zp b) (zp c) ?= 0)%Z with Gt => CCW | Lt => CW | Eq => Collinear end.
Proof using.
  intros Fa Fb Fc H. assert (X := orient_2d_exact false a b c Fa Fb Fc ltac:(discriminate)).
  assert (Y : orient_2d false a b c = Done o).
  { unfold orient_2d in *. revert H. case dbg; auto. cbn. repeat match goal with |- context [rassert ?p ?b] => destruct b; cbn; try discriminate end. auto. }
  rewrite X in Y. congruence.
Qed.
Lemma orient_col u v w pu pv pw o : pt points u = Done pu -> pt points v = Done pv -> pt points w = Done pw ->
  orient_2d dbg pu pv pw = Done o -> u <> v -> v <> w -> u <> w -> is_collinear o = true -> ~ nocol.
Proof using PP.
  intros Hu Hv Hw Ho N1 N2 N3 C NC. destruct (pt_done _ _ Hu) as (L1 & F1 & Z1). destruct (pt_done _ _ Hv) as (L2 & F2 & Z2).
  destruct (pt_done _ _ Hw) as (L3 & F3 & Z3). apply orient_2d_done in Ho; auto. rewrite Z1, Z2, Z3 in Ho.
  specialize (NC u v w L1 L2 L3 N1 N2 N3). destruct (Z.compare_spec (orient (zc u) (zc v) (zc w)) 0); subst o; try discriminate. contradiction.
Qed.
Lemma neighbor_lt ts t a x : mesh N zc ts -> a < length ts -> t_points t = t_points (tri_at ts a) -> t_neighbors t = t_neighbors (tri_at ts a) ->
  forall k b, get3 (t_neighbors t) k = x -> x = Some b -> b < length ts.
Proof using. intros M La _ EN k b H1 H2. destruct (m_adj M a k b La) as [j PR]; [|apply PR]. unfold tn, NB. rewrite <- EN. congruence. Qed.

Lemma edge_process_wp D n ns : scan_sound points -> forall fuel,
  (forall ep eq ce t_id queue s, ep <> eq -> EP D n ns queue s -> (forall a, t_id = Some a -> a < n) ->
     wp (edge_event_process dbg points fuel ep eq ce t_id eq queue) s (fun _ s' => J s') (fun queue' s' => EP D n ns queue' s' /\
       (nocol -> ep = p_id ce -> eq = q_id ce -> marked_edge (s_tris s') ep eq))) /\
  (forall ep eq ce t_id queue s, ep <> eq -> EP D n ns queue s -> (forall a, t_id = Some a -> a < n) ->
     wp (flip_edge_event dbg points fuel ep eq ce t_id eq queue) s (fun _ s' => J s') (fun queue' s' => EP D n ns queue' s' /\
       (nocol -> ep = p_id ce -> eq = q_id ce -> marked_edge (s_tris s') ep eq))) /\
  (forall ep eq ce ft t_id p queue s, ep <> eq -> EP D n ns queue s -> (forall a, t_id = Some a -> a < n) ->
     wp (flip_scan_edge_event dbg points fuel ep eq ce ft t_id p queue) s (fun _ s' => J s') (fun queue' s' => EP D n ns queue' s')).
Proof using PP.
  intros SC. induction fuel as [|f (IH1 & IH2 & IH3)].
  { split; [|split]; intros; cbn [edge_event_process flip_edge_event flip_scan_edge_event]; apply wp_fuel; eapply EP_J; eauto. }
  split; [|split].
  - intros ep eq ce t_id queue s NE K LT. cbn [edge_event_process]. pose proof (EP_J _ _ _ _ _ K) as HJ.
    apply wp_try; [intro; exact HJ|]. intros ? V1. destruct t_id as [a|]; [|discriminate]. clear V1.
    pose proof (EP_len _ _ _ _ _ K) as LL. assert (La : a < length (s_tris s)) by (rewrite LL; auto). pose proof (EP_mesh _ _ _ _ _ K) as M.
    apply wp_bind. eapply wp_mono; [apply (try_mark_wp points ep eq a s M La)|contradiction|]. intros [] s1 H; cbv beta iota in H.
    { destruct H as (ts' & -> & MM & FA & ME & _). apply wp_ret. split; [apply more_EP; auto|]. intros; exact ME. }
    destruct H as [-> EI]. set (ts := s_tris s) in *.
    assert (Da : distinct (tri_at ts a)) by apply (mesh_dist M La).
    apply wp_bind, wp_get_tris. fold ts. apply wp_bind, wp_lift. rewrite ts_mut_at by auto. cbn [okr].
    apply wp_try; [intro; exact HJ|]. intros p1 E1. apply wp_try; [intro; exact HJ|]. intros peq E2.
    apply wp_try; [intro; exact HJ|]. intros pp1 E3. apply wp_try; [intro; exact HJ|]. intros pep E4.
    destruct (by_point_done _ _ _ _ _ _ E1) as (i & PI & _).
    rewrite PI in E1. rewrite (point_ccw_V _ _ Da) in E1. injection E1 as E1.
    assert (P1 : p1 <> ep). { intros ->. destruct (edge_index_none _ _ _ Da EI (prv i)) as [Q1 Q2]. apply Q2. split; [rewrite prv_prv|rewrite nxt_prv]; congruence. }
    assert (PE : forall k, get3 (t_points (tri_at ts a)) k = V (tri_at ts a) k) by reflexivity.
    assert (NEI : forall k b, NB (tri_at ts a) k = Some b -> b < n).
    { intros k b H. rewrite <- LL. destruct (m_adj M a k b La H) as [j PR]. apply PR. }
    (* both collinear branches *)
    assert (COL : forall p', p' <> ep -> ~ nocol -> wp (match edge_index (tri_at ts a) eq p' with
        | Some edge_index => bind (mark_collinear (Some a) edge_index) (fun t => bind (lift (neighbor_across t eq)) (fun across =>
            bind (lift (with_q points ce p')) (fun ce' => edge_event_process dbg points f ep p' ce' across p' queue)))
        | None => panic P_collinear
        end) s (fun _ s' => J s') (fun queue' s' => EP D n ns queue' s' /\
       (nocol -> ep = p_id ce -> eq = q_id ce -> marked_edge (s_tris s') ep eq))).
    { intros p' NP NC. destruct (edge_index (tri_at ts a) eq p') as [k|]; [|apply wp_panic; exact HJ].
      pose proof K as (Qn & -> & K'). destruct K' as (K1 & K2 & K3 & K4 & K5 & K6).
      apply wp_bind. eapply wp_mono; [apply (mark_collinear_wp D Qn a k s K3 La NC)|contradiction|].
      intros t s1 (-> & ts' & -> & MM & K3'). fold ts in MM |- *.
      assert (EP1 : EP D n ns (map Some Qn) (mkSw ts' (s_front s) (s_result s) (s_trace s))) by (apply more_EP; auto; tauto).
      apply wp_try; [intro; exact HJ|]. intros across E9. apply wp_try; [intro; exact HJ|]. intros ce' E10.
      eapply wp_mono; [apply IH1; [auto|exact EP1|]|auto|].
      - intros b ->. unfold neighbor_across in E9. destruct (point_index _ eq) as [k'|] eqn:PK; [|discriminate]. injection E9 as E9. apply (NEI k'). exact E9.
      - intros q' s' [X _]. split; auto. intro; contradiction. }
    apply wp_try; [intro; exact HJ|]. intros o1 E5.
    assert (X1 : eq <> p1). { rewrite PI, <- E1. intro Q. apply Da in Q. destruct i; discriminate. }
    destruct (is_collinear o1) eqn:C1.
    { apply COL; auto. apply (orient_col eq p1 ep peq pp1 pep o1); auto. }
    apply wp_try; [intro; exact HJ|]. intros p2 E6. rewrite PI, (point_cw_V _ _ Da) in E6. injection E6 as E6.
    apply wp_try; [intro; exact HJ|]. intros pp2 E7. apply wp_try; [intro; exact HJ|]. intros o2 E8.
    assert (P2 : p2 <> ep). { intros ->. destruct (edge_index_none _ _ _ Da EI (nxt i)) as [Q1 Q2]. apply Q1. split; [rewrite nxt_nxt|rewrite prv_nxt]; congruence. }
    assert (X2 : eq <> p2). { rewrite PI, <- E6. intro Q. apply Da in Q. destruct i; discriminate. }
    destruct (is_collinear o2) eqn:C2.
    { apply COL; auto. apply (orient_col eq p2 ep peq pp2 pep o2); auto. }
    destruct (orientation_eqb o1 o2).
    + apply wp_try; [intro; exact HJ|]. intros t' E9. apply IH1; auto. intros b ->.
      rewrite PI in E9. rewrite (neighbor_ccw_V _ _ Da), (neighbor_cw_V _ _ Da) in E9. destruct (is_cw o1); injection E9 as E9; eapply NEI; exact E9.
    + apply IH2; auto.
  - intros ep eq ce t_id queue s NE K LT. cbn [flip_edge_event]. pose proof (EP_J _ _ _ _ _ K) as HJ.
    set (ts := s_tris s) in *. apply wp_bind, wp_get_tris. fold ts.
    apply wp_try; [intro; exact HJ|]. intros t E1. apply not_valid in E1 as (a & -> & La & ->).
    pose proof (EP_len _ _ _ _ _ K) as LL. pose proof (EP_mesh _ _ _ _ _ K) as M. fold ts in LL, M.
    assert (Da : distinct (tri_at ts a)) by apply (mesh_dist M La).
    apply wp_try; [intro; exact HJ|]. intros ot_id E2.
    destruct (point_index (tri_at ts a) eq) as [i|] eqn:PI; [|unfold neighbor_across in E2; rewrite PI in E2; discriminate].
    apply point_index_some in PI. rewrite PI in E2. rewrite (neighbor_across_V _ _ Da) in E2. injection E2 as E2.
    apply wp_try; [intro; exact HJ|]. intros ot E3. apply not_valid in E3 as (b & -> & Lb & ->).
    destruct (m_adj M a i b La E2) as [j PR]. pose proof PR as (_ & _ & _ & _ & O1 & O2).
    assert (Db : distinct (tri_at ts b)) by apply (mesh_dist M Lb).
    apply wp_bind, wp_lift. rewrite PI at 1. rewrite (opposite_point_V (tri_at ts a) (tri_at ts b) i j Da Db O2). cbn [okr].
    apply wp_try; [intro; exact HJ|]. intros pp E5.
    apply wp_bind, wp_lift. rewrite PI at 1. rewrite (point_ccw_V _ _ Da). cbn [okr].
    apply wp_try; [intro; exact HJ|]. intros pb E7.
    apply wp_bind, wp_lift. rewrite PI at 1. rewrite (point_cw_V _ _ Da). cbn [okr].
    apply wp_try; [intro; exact HJ|]. intros pc E9. apply wp_try; [intro; exact HJ|]. intros pd E10.
    destruct (in_scan_area pp pb pc pd) eqn:E11.
    + destruct (SC _ _ _ _ _ _ _ _ E5 E7 E9 E10 E11) as [S1 S2].
      assert (C1 : ccw3 zc (tv ts a (prv i)) (tv ts a i) (tv ts b j)).
      { unfold ccw3, tv. rewrite <- PI. rewrite <- orient_rot. exact S2. }
      assert (C2 : ccw3 zc (tv ts a (nxt i)) (tv ts b j) (tv ts a i)).
      { unfold ccw3, tv. rewrite <- PI. rewrite orient_rot', orient_swap. lia. }
      pose proof K as (Qn & -> & K1 & K2 & K3 & K4 & K5 & K6).
      apply wp_bind. eapply wp_mono with (F := fun _ _ => False); [|intros ? ? []|].
      { rewrite PI. change (V (tri_at ts a) i) with (tv ts a i). change (V (tri_at ts b) j) with (tv ts b j). apply (flip_pair_wp D Qn a i b j s K3 PR C1 C2). }
      intros ? s1 (ts' & af' & need & -> & FS & K3' & SN).
      pose proof (fs_len _ _ _ _ _ _ _ _ _ _ FS) as LL'. fold ts in FS, LL'.
      assert (EP1 : EP D n ns (map Some Qn ++ [Some a; Some b]) (mkSw ts' af' (s_result s) (s_trace s))).
      { exists (Qn ++ [a; b]). split; [rewrite map_app; reflexivity|]. split; [exact K1|]. split; [exact K2|].
        split; [|split; [apply Forall_app; split; auto; repeat constructor; rewrite <- LL; auto|split; [exact (eq_trans LL' LL)|exact (same_trans _ _ _ K6 SN)]]].
        destruct K3' as [M' DF DB B FO W AG]. constructor; auto. cbn [s_tris s_front].
        intros x1 y1 BD. destruct (DB x1 y1 BD) as [X|X]; [left|right]; apply in_or_app; simpl in *; tauto. }
      cbv zeta. rewrite Nat.eqb_refl. cbn [andb].
      destruct (V (tri_at ts b) j =? ep) eqn:OE.
      * apply Nat.eqb_eq in OE. destruct ((eq =? q_id ce) && (ep =? p_id ce)) eqn:EE.
        -- destruct EP1 as (Qn' & EQ' & Y1 & Y2 & Y3 & Y4 & Y5 & Y6). rewrite EQ'. cbn [s_tris s_front s_trace] in *.
           apply wp_bind. eapply wp_mono; [apply (mark_flipped_wp D Qn' a i b j ep eq (mkSw ts' af' (s_result s) (s_trace s)) Y3)|contradiction|].
           ++ exact (fs_diag _ _ _ _ _ _ _ _ _ _ FS).
           ++ destruct (fs_a _ _ _ _ _ _ _ _ _ _ FS) as (_ & F2 & F3). unfold pedge. cbn [fst snd s_tris]. rewrite F2, F3. unfold tv. congruence.
           ++ destruct (fs_b _ _ _ _ _ _ _ _ _ _ FS) as (_ & F2 & F3). unfold pedge. cbn [fst snd s_tris]. rewrite F2, F3. unfold tv. congruence.
           ++ intros ? s2 (ts2 & -> & MM & K7 & ME & _). apply wp_ret. cbn [s_tris s_front s_result s_trace] in *. split; [|auto].
              exists Qn'. split; auto. split; [exact Y1|]. split; [exact Y2|]. split; [exact K7|]. split; auto. split; [exact (eq_trans (al_len _ _ (mm_alike _ _ MM)) Y5)|exact Y6].
        -- apply wp_ret. split; [exact EP1|]. intros _ Q1 Q2. rewrite Q1, Q2, !Nat.eqb_refl in EE. discriminate.
      * apply wp_try; [intro; exact K1|]. intros peq Z1. apply wp_try; [intro; exact K1|]. intros pop Z2.
        apply wp_try; [intro; exact K1|]. intros pep Z3. apply wp_try; [intro; exact K1|]. intros o Z4.
        unfold next_flip_triangle. destruct (is_ccw o).
        -- apply IH2; auto. rewrite (eq_refl : [Some b] = map Some [b]). apply EP_app; auto. constructor; auto. rewrite <- LL; auto.
        -- apply IH2; auto. { rewrite (eq_refl : [Some a] = map Some [a]). apply EP_app; auto. } intros c Q; injection Q as <-. rewrite <- LL; auto.
    + apply wp_bind. eapply wp_mono with (F := fun _ s' => s' = s) (Q := fun _ s' => s' = s); [|intros ? ? ->; exact HJ|].
      { unfold next_flip_point. do 4 (apply wp_try; [auto|]; intros ? ?). apply wp_bind, wp_get_tris. apply wp_try; [auto|]. intros ? ?.
        match goal with |- wp (match ?o with _ => _ end) _ _ _ => destruct o end; try (apply wp_lift; match goal with |- okr ?r _ _ => destruct r; simpl; auto end). }
      intros new_p s1 ->. apply wp_bind. eapply wp_mono; [apply IH3; auto|auto|].
      * intros c Q; injection Q as <-. rewrite <- LL; auto.
      * intros queue1 s1 K1. cbv beta in K1. apply IH1; auto.
  - intros ep eq ce ft t_id p queue s NE K LT. cbn [flip_scan_edge_event]. pose proof (EP_J _ _ _ _ _ K) as HJ.
    set (ts := s_tris s) in *. apply wp_bind, wp_get_tris. fold ts.
    apply wp_try; [intro; exact HJ|]. intros t E1. apply not_valid in E1 as (a & -> & La & ->).
    pose proof (EP_len _ _ _ _ _ K) as LL. pose proof (EP_mesh _ _ _ _ _ K) as M. fold ts in LL, M.
    apply wp_try; [intro; exact HJ|]. intros ot_id E2.
    destruct (tid_invalid ot_id); [apply wp_panic; exact HJ|].
    apply wp_try; [intro; exact HJ|]. intros ot E3. apply not_valid in E3 as (b & -> & Lb & ->).
    apply wp_try; [intro; exact HJ|]. intros op E4. apply wp_try; [intro; exact HJ|]. intros ft' E5.
    apply wp_try; [intro; exact HJ|]. intros p1 E6. apply wp_try; [intro; exact HJ|]. intros p2 E7.
    apply wp_try; [intro; exact HJ|]. intros peq E8. apply wp_try; [intro; exact HJ|]. intros pp1 E9.
    apply wp_try; [intro; exact HJ|]. intros pp2 E10. apply wp_try; [intro; exact HJ|]. intros pop E12.
    assert (LB : forall c, Some b = Some c -> c < n) by (intros c Q; injection Q as <-; rewrite <- LL; auto).
    destruct (in_scan_area peq pp1 pp2 pop) eqn:E11.
    + destruct (SC _ _ _ _ _ _ _ _ E8 E9 E10 E12 E11) as [S1 S2].
      eapply wp_mono; [apply IH2; [|exact K|exact LB]|auto|intros ? ? [X _]; exact X].
      intros Q. rewrite Q in S1. rewrite (proj1 (orient_diag _ _)) in S1. lia.
    + apply wp_bind. eapply wp_mono with (F := fun _ s' => s' = s) (Q := fun _ s' => s' = s); [|intros ? ? ->; exact HJ|].
      { unfold next_flip_point. do 4 (apply wp_try; [auto|]; intros ? ?). apply wp_bind, wp_get_tris. apply wp_try; [auto|]. intros ? ?.
        match goal with |- wp (match ?o with _ => _ end) _ _ _ => destruct o end; try (apply wp_lift; match goal with |- okr ?r _ _ => destruct r; simpl; auto end). }
      intros new_p s1 ->. apply IH3; auto.
Qed.
End S.
