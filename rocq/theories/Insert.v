(** * Insert: the three mutually recursive functions of an edge insertion mark only that edge

    In general position, as long as no marked edge crosses the new one. *)
From Coq Require Import List Arith Bool Lia ZArith.
From Verif Require Import Base Num Shape ShapeSpec Utils Points Triangles Front Sweeper Cdt Lists Monad Traverse Exact
  FrontSpec Geom Mesh Rotate Setup Legal Legalize Boundary Chain Winding Cover CoverRun Remap Attach FrontInv Disc Good Marks Flips LegalTotal Cone Planar Corridor Frames.
Import ListNotations.

Section S.
Context {A : Arith} {E : Exact A}.
Variable dbg : bool.
Variable points : Points.
Hypothesis PP : proper points.
Hypothesis NC : nocol points.
Hypothesis SX : scan_exact points.
Notation N := (npts points).
Notation zc := (zc points).
Notation fl := (fl N zc).
Notation SL := (SL zc).
Notation PL := (PL points).
Notation FI := (FI points).
Notation Cor := (Cor points).
Notation frame := (frame points).
Notation EP := (EP points).
Notation Kst := (Kst points).
Notation J := (J points).
Notation Good := (Good points).
Notation cone a b c d := (in_cone (zc a) (zc b) (zc c) (zc d)).

Lemma EP_PL D n ns queue s : EP D n ns queue s -> PL (s_tris s).
Proof using NC. intros (Qn & _ & _ & _ & [M _ _ B FO _ AG _] & _). constructor; auto. exists (s_front s), []. auto. Qed.

(** what the insertion leaves behind *)
Definition post (m : mode) (S : nat -> Prop) (ep eq : nat) (ts ts' : TriangleStore) : Prop :=
  match m with
  | None => exists ts1, fl S ts ts1 /\ marked_more ts1 ts' /\ only ep eq ts1 ts'
  | Some (H, h1, h2) => fl S ts ts' /\ exists G i j, paired ts' G i H j /\ S G /\ tv ts' G i = h1 /\ tv ts' H j = h2 /\ tv ts' H (nxt j) = ep /\ tv ts' H (prv j) = eq
  end.
Lemma post_pre m (S : nat -> Prop) ep eq ts ts1 ts' : fl S ts ts1 -> post m S ep eq ts1 ts' -> post m S ep eq ts ts'.
Proof using.
  intros F. destruct m as [[[H h1] h2]|]; cbn [post].
  - intros [F1 X]. split; auto. eapply fl_trans; eauto.
  - intros (t1 & F1 & X). exists t1. split; auto. eapply fl_trans; eauto.
Qed.
Definition spost (m : mode) (S : nat -> Prop) (ep e p1 p2 H : nat) (ts ts' : TriangleStore) : Prop :=
  exists (S' : nat -> Prop) d G i j, (forall c, S' c -> S c) /\ off m S' /\ fl S' ts ts' /\
    paired ts' G i H j /\ S' G /\ tv ts' G i = p1 /\ tv ts' H j = p2 /\ tv ts' H (nxt j) = e /\ tv ts' H (prv j) = d /\ (m <> None -> d <> ep).
(** where edge_event_process may be started *)
Definition ready (m : mode) (S : nat -> Prop) (ep eq : nat) (ts : TriangleStore) (t_id : tid) : Prop :=
  match m with
  | None => forall a, t_id = Some a -> a < length ts
  | Some _ => exists t i, t_id = Some t /\ t < length ts /\ S t /\ tv ts t i = eq /\
      (FI ts ep eq t i \/ ((orient (zc eq) (zc (tv ts t (nxt i))) (zc ep) < 0)%Z /\ (orient (zc eq) (zc (tv ts t (prv i))) (zc ep) < 0)%Z /\
         exists G k, tn ts t (prv i) = Some G /\ S G /\ FI ts ep eq G k))
  end.
Lemma FI_ready m (S : nat -> Prop) ep eq ts t i : FI ts ep eq t i -> S t -> ready m S ep eq ts (Some t).
Proof using.
  intros F St. destruct m as [x|]; cbn [ready].
  - exists t, i. pose proof F as (L & E0 & C). split; auto. 
  - intros a Q. injection Q as <-. apply F.
Qed.

(** the next point of a scan *)
Lemma nfp_wp ep eq b j s : mesh N zc (s_tris s) -> b < length (s_tris s) ->
  let op := tv (s_tris s) b j in
  wp (next_flip_point dbg points ep eq (Some b) op) s (fun _ _ => True) (fun p s' => s' = s /\
    (((0 < orient (zc eq) (zc op) (zc ep))%Z /\ p = tv (s_tris s) b (prv j)) \/ ((orient (zc eq) (zc op) (zc ep) < 0)%Z /\ p = tv (s_tris s) b (nxt j)))).
Proof using PP.
  intros M Lb op. unfold next_flip_point. apply wp_try; [auto|]. intros pq E1. apply wp_try; [auto|]. intros po E2. apply wp_try; [auto|]. intros pp E3.
  apply wp_try; [auto|]. intros o E4. apply wp_bind, wp_get_tris. apply wp_try; [auto|]. intros ot E5.
  destruct (pt_done points PP _ _ E1) as (_ & F1 & Z1). destruct (pt_done points PP _ _ E2) as (_ & F2 & Z2). destruct (pt_done points PP _ _ E3) as (_ & F3 & Z3).
  apply orient_2d_done in E4; auto. rewrite Z1, Z2, Z3 in E4.
  unfold ts_get_unchecked in E5. apply not_valid in E5 as (b' & Q & _ & ->). injection Q as <-.
  assert (Db : distinct (tri_at (s_tris s) b)) by apply (mesh_dist M Lb).
  destruct (Z.compare_spec (orient (zc eq) (zc op) (zc ep)) 0); subst o.
  - apply wp_panic. exact I.
  - unfold op, tv. rewrite point_ccw_V by auto. apply wp_lift. cbn [okr]. auto.
  - unfold op, tv. rewrite point_cw_V by auto. apply wp_lift. cbn [okr]. auto.
Qed.

Lemma paired_at ts a i b : mesh N zc ts -> a < length ts -> tn ts a i = Some b -> exists j, paired ts a i b j.
Proof using. intros M L. apply (m_adj M); auto. Qed.

(** after the scan, the insertion goes on from the same triangle *)
Lemma spost_ready m (S : nat -> Prop) ep e qid p1 p2 H ts ts' : PL ts' -> frame m S ep e qid ts' -> cone e p1 p2 ep -> S H ->
  spost m S ep e p1 p2 H ts ts' -> ready m S ep e ts' (Some H).
Proof using PP NC.
  intros HP F [C1 C2] SH (S' & d & G & i & j & HS & OF & FL & PR & SG & V1 & V2 & V3 & V4 & ND).
  assert (LH : H < length ts') by apply PR. assert (LG : G < length ts') by apply PR.
  destruct m as [mm|]; cbn [ready]; [|intros a Q; injection Q as <-; exact LH].
  assert (N1 : d <> ep) by (apply ND; discriminate). pose proof PR as (_ & _ & _ & TN & O1 & O2).
  pose proof (vertex_lt points ts' ep HP (frame_vertex _ _ _ _ _ _ _ F)) as Lep.
  pose proof (m_range (pl_mesh _ _ HP) H (nxt j) LH) as Le. pose proof (m_range (pl_mesh _ _ HP) H (prv j) LH) as Ld. rewrite V3 in Le. rewrite V4 in Ld.
  assert (Ned : e <> d). { intro Q. rewrite <- V3, <- V4 in Q. apply (tv_inj (m_ccw (pl_mesh _ _ HP) H LH)) in Q. destruct j; discriminate. }
  assert (NZ : orient (zc e) (zc d) (zc ep) <> 0%Z). { apply NC; auto. intro Q. apply (proj1 F). auto. }
  exists H, (nxt j). split; auto. split; auto. split; auto. split; auto. rewrite nxt_nxt, prv_nxt, V2, V4.
  destruct (Z_lt_le_dec 0 (orient (zc e) (zc d) (zc ep))) as [G1|G1].
  - left. split; auto. split; auto. rewrite nxt_nxt, prv_nxt, V2, V4. split; auto.
  - right. split; [lia|]. split; auto. exists G, (prv i). split; [exact TN|]. split; auto. split; auto. rewrite nxt_prv, prv_prv.
    assert (Z1 : tv ts' G (prv i) = e) by congruence. assert (Z2 : tv ts' G (nxt i) = d) by congruence. rewrite Z2, V1. split; auto. split; auto. lia.
Qed.

(** a flip of the first triangle *)
Lemma FI_flip ts ep eq a i b j need ts' : flipspec N zc ts a i b j need false ts' -> FI ts ep eq a i ->
  ((0 < orient (zc eq) (zc (tv ts b j)) (zc ep))%Z -> FI ts' ep eq a (nxt i)) /\ ((orient (zc eq) (zc (tv ts b j)) (zc ep) < 0)%Z -> FI ts' ep eq b (prv j)).
Proof using.
  intros FS (L & E0 & [C1 C2]). pose proof (fs_len _ _ _ _ _ _ _ _ _ _ FS) as LL. destruct (fs_paired _ _ _ _ _ _ _ _ _ _ FS) as (La & Lb & _).
  destruct (fs_a _ _ _ _ _ _ _ _ _ _ FS) as (A1 & A2 & A3). destruct (fs_b _ _ _ _ _ _ _ _ _ _ FS) as (B1 & B2 & B3).
  split; intro O; (split; [unfold TriangleStore in *; rewrite LL; auto|]).
  - rewrite nxt_nxt, prv_nxt, A1, A2, A3. split; auto. split; auto.
  - rewrite nxt_prv, prv_prv, B1, B2, B3. split; auto. split; auto.
Qed.

Lemma insert_wp D n ns : forall fuel,
  (forall m S ep eq ce t_id queue s, EP D n ns queue s -> frame m S ep eq (q_id ce) (s_tris s) -> ready m S ep eq (s_tris s) t_id ->
     wp (edge_event_process dbg points fuel ep eq ce t_id eq queue) s (fun _ _ => True) (fun queue' s' => EP D n ns queue' s' /\ post m S ep eq (s_tris s) (s_tris s'))) /\
  (forall m S ep eq ce t i queue s, EP D n ns queue s -> frame m S ep eq (q_id ce) (s_tris s) -> S t -> FI (s_tris s) ep eq t i ->
     wp (flip_edge_event dbg points fuel ep eq ce (Some t) eq queue) s (fun _ _ => True) (fun queue' s' => EP D n ns queue' s' /\ post m S ep eq (s_tris s) (s_tris s'))) /\
  (forall m S ep eq ce p1 p2 H i C X k queue s, EP D n ns queue s -> frame m S ep eq (q_id ce) (s_tris s) -> Cor (s_tris s) S ep eq p1 p2 H i C X k -> X <> H ->
     wp (flip_scan_edge_event dbg points fuel ep eq ce (Some H) (Some X) (tv (s_tris s) X k) queue) s (fun _ _ => True)
       (fun queue' s' => EP D n ns queue' s' /\ spost m S ep eq p1 p2 H (s_tris s) (s_tris s'))).
Proof using PP NC SX.
  assert (SC := scan_exact_sound points SX).
  induction fuel as [|f (IH1 & IH2 & IH3)].
  { split; [|split]; intros; cbn [edge_event_process flip_edge_event flip_scan_edge_event]; apply wp_fuel; exact I. }
  split; [|split].
  - intros m S ep eq ce t_id queue s K F RD. cbn [edge_event_process].
    apply wp_try; [auto|]. intros ? V1. destruct t_id as [a|]; [|discriminate]. clear V1.
    pose proof (EP_PL _ _ _ _ _ K) as HP. pose proof (pl_mesh _ _ HP) as M. pose proof F as (NE & HSL & FM).
    assert (La : a < length (s_tris s)).
    { destruct m as [mm|]; cbn [ready] in RD; [|auto]. destruct RD as (t & i & Q & L & _). injection Q as <-. exact L. }
    apply wp_bind. eapply wp_mono; [apply (try_mark_wp points ep eq a s M La)|contradiction|]. intros [] s1 HM; cbv beta iota in HM.
    { destruct HM as (ts' & -> & MM & FA & ME & ON & EI). apply wp_ret. split; [apply more_EP; auto|]. cbn [s_tris].
      destruct m as [[[H h1] h2]|].
      - exfalso. cbn [ready] in RD. destruct RD as (t & i & Q & L & St & E0 & _). injection Q as <-.
        destruct (edge_index (tri_at (s_tris s) a) ep eq) as [l|] eqn:EQ; [|congruence]. apply edge_index_some in EQ as [[Q1 _]|[Q1 _]]; symmetry in Q1.
        + apply (nf_noep points S H h1 h2 ep eq (q_id ce) (s_tris s) HP F a i (nxt l) St L E0 Q1).
        + apply (nf_noep points S H h1 h2 ep eq (q_id ce) (s_tris s) HP F a i (prv l) St L E0 Q1).
      - cbn [post]. exists (s_tris s). split; [constructor|]. split; auto. }
    destruct HM as [-> EI]. set (ts := s_tris s) in *.
    assert (Da : distinct (tri_at ts a)) by apply (mesh_dist M La).
    apply wp_bind, wp_get_tris. fold ts. apply wp_bind, wp_lift. rewrite ts_mut_at by auto. cbn [okr].
    apply wp_try; [auto|]. intros p1 E1. apply wp_try; [auto|]. intros peq E2.
    apply wp_try; [auto|]. intros pp1 E3. apply wp_try; [auto|]. intros pep E4.
    destruct (by_point_done _ _ _ _ _ _ E1) as (i & PI & _).
    rewrite PI in E1. rewrite (point_ccw_V _ _ Da) in E1. injection E1 as E1.
    assert (P1 : p1 <> ep). { intros ->. destruct (edge_index_none _ _ _ Da EI (prv i)) as [Q1 Q2]. apply Q2. split; [rewrite prv_prv|rewrite nxt_prv]; congruence. }
    apply wp_try; [auto|]. intros o1 E5.
    assert (X1 : eq <> p1). { rewrite PI, <- E1. intro Q. apply Da in Q. destruct i; discriminate. }
    destruct (is_collinear o1) eqn:C1.
    { exfalso. apply (orient_col dbg points PP eq p1 ep peq pp1 pep o1); auto. }
    apply wp_try; [auto|]. intros p2 E6. rewrite PI, (point_cw_V _ _ Da) in E6. injection E6 as E6.
    apply wp_try; [auto|]. intros pp2 E7. apply wp_try; [auto|]. intros o2 E8.
    assert (P2 : p2 <> ep). { intros ->. destruct (edge_index_none _ _ _ Da EI (nxt i)) as [Q1 Q2]. apply Q1. split; [rewrite nxt_nxt|rewrite prv_nxt]; congruence. }
    assert (X2 : eq <> p2). { rewrite PI, <- E6. intro Q. apply Da in Q. destruct i; discriminate. }
    destruct (is_collinear o2) eqn:C2.
    { exfalso. apply (orient_col dbg points PP eq p2 ep peq pp2 pep o2); auto. }
    destruct (pt_done points PP _ _ E2) as (Leq & F1 & Z1). destruct (pt_done points PP _ _ E3) as (L1 & F2 & Z2).
    destruct (pt_done points PP _ _ E4) as (Lep & F3 & Z3). destruct (pt_done points PP _ _ E7) as (L2 & F4 & Z4).
    apply orient_2d_done in E5; auto. apply orient_2d_done in E8; auto. rewrite Z1, Z2, Z3 in E5. rewrite Z1, Z4, Z3 in E8.
    change (V (tri_at ts a) i) with (tv ts a i) in PI. change (V (tri_at ts a) (nxt i)) with (tv ts a (nxt i)) in E1. change (V (tri_at ts a) (prv i)) with (tv ts a (prv i)) in E6.
    destruct (orientation_eqb o1 o2) eqn:OE.
    + apply wp_try; [auto|]. intros t' E9.
      assert (RD' : ready m S ep eq ts t').
      { destruct m as [mm|]; cbn [ready] in RD |- *.
        - destruct RD as (t & i' & Q & L & St & E0 & CASE). injection Q as <-.
          assert (i' = i) as ->. { apply (tv_inj (m_ccw M a La)). fold ts in E0. congruence. } fold ts in CASE.
          destruct CASE as [(_ & _ & [Y1 Y2])|(Y1 & Y2 & G & k & TG & SG & FG)].
          + exfalso. rewrite E1 in Y1. rewrite E6 in Y2. destruct (Z.compare_spec (orient (zc eq) (zc p1) (zc ep)) 0), (Z.compare_spec (orient (zc eq) (zc p2) (zc ep)) 0); try lia. subst o1 o2. discriminate.
          + rewrite E1 in Y1. destruct (Z.compare_spec (orient (zc eq) (zc p1) (zc ep)) 0); try lia. subst o1. cbn [is_cw] in E9.
            rewrite PI in E9. unfold tv in E9. rewrite (neighbor_ccw_V _ _ Da) in E9. injection E9 as E9. change (tn ts a (prv i) = t') in E9. rewrite TG in E9. subst t'.
            exists G, k. split; auto. split; [apply FG|]. split; auto. split; [apply FG|]. left. exact FG.
        - intros b ->. rewrite PI in E9. unfold tv in E9. rewrite (neighbor_ccw_V _ _ Da), (neighbor_cw_V _ _ Da) in E9.
          destruct (is_cw o1); injection E9 as E9; destruct (m_adj M a _ b La E9) as [jj PR]; apply PR. }
      eapply wp_mono; [apply IH1 with (m := m) (S := S); auto|auto|]. intros queue' s' [H1 H2]. split; auto.
    + assert (FT : S a /\ FI ts ep eq a i).
      { destruct m as [mm|]; cbn [ready] in RD.
        - destruct RD as (t & i' & Q & L & St & E0 & CASE). injection Q as <-.
          assert (i' = i) as ->. { apply (tv_inj (m_ccw M a La)). fold ts in E0. congruence. } fold ts in CASE.
          destruct CASE as [FT|(Y1 & Y2 & _)]; auto. exfalso. rewrite E1 in Y1. rewrite E6 in Y2.
          destruct (Z.compare_spec (orient (zc eq) (zc p1) (zc ep)) 0), (Z.compare_spec (orient (zc eq) (zc p2) (zc ep)) 0); try lia. subst o1 o2. discriminate.
        - destruct FM as [SA [TV TQ TH]]. split; auto. split; auto. split; auto. rewrite E1, E6.
          assert (V1 : ylt (zc p1) (zc eq)) by (apply TH; auto; exists a, (nxt i); auto).
          assert (V2 : ylt (zc p2) (zc eq)) by (apply TH; auto; exists a, (prv i); auto).
          assert (V3 : ylt (zc ep) (zc eq)) by (apply TH; auto).
          pose proof (pl_ccw points ts a i HP La) as CC. rewrite <- PI, E1, E6 in CC.
          destruct (Z.compare_spec (orient (zc eq) (zc p1) (zc ep)) 0) as [Y1|Y1|Y1], (Z.compare_spec (orient (zc eq) (zc p2) (zc ep)) 0) as [Y2|Y2|Y2]; subst o1 o2; try discriminate.
          + exfalso. exact (high_cone _ _ _ _ V1 V2 V3 CC Y1 Y2).
          + split; auto. }
      destruct FT as [Sa FT]. eapply wp_mono; [apply IH2 with (m := m) (S := S) (i := i); auto|auto|]. intros queue' s' [H1 H2]. split; auto.
  - intros m S ep eq ce a i queue s K F Sa FT. cbn [flip_edge_event].
    pose proof (EP_PL _ _ _ _ _ K) as HP. pose proof (EP_len _ _ _ _ _ _ K) as LL. pose proof F as (NE & HSL & FM). pose proof (frame_vertex _ _ _ _ _ _ _ F) as HV.
    set (ts := s_tris s) in *. pose proof (pl_mesh _ _ HP) as M. pose proof FT as (La & PI & CE). symmetry in PI.
    assert (Da : distinct (tri_at ts a)) by apply (mesh_dist M La).
    apply wp_bind, wp_get_tris. fold ts.
    apply wp_try; [auto|]. intros t E1. unfold ts_get_unchecked in E1. apply not_valid in E1 as (a' & Q & _ & ->). injection Q as <-.
    apply wp_try; [auto|]. intros ot_id E2. rewrite PI in E2. unfold tv in E2. rewrite (neighbor_across_V _ _ Da) in E2. injection E2 as E2.
    apply wp_try; [auto|]. intros ot E3. apply not_valid in E3 as (b & -> & Lb & ->).
    destruct (m_adj M a i b La E2) as [j PR]. pose proof PR as (_ & _ & _ & _ & O1 & O2).
    assert (Db : distinct (tri_at ts b)) by apply (mesh_dist M Lb).
    apply wp_bind, wp_lift. rewrite PI at 1. unfold tv. rewrite (opposite_point_V (tri_at ts a) (tri_at ts b) i j Da Db O2). cbn [okr].
    apply wp_try; [auto|]. intros pp E5.
    apply wp_bind, wp_lift. rewrite PI at 1. unfold tv. rewrite (point_ccw_V _ _ Da). cbn [okr].
    apply wp_try; [auto|]. intros pb E7.
    apply wp_bind, wp_lift. rewrite PI at 1. unfold tv. rewrite (point_cw_V _ _ Da). cbn [okr].
    apply wp_try; [auto|]. intros pc E9. apply wp_try; [auto|]. intros pd E10.
    change (V (tri_at ts b) j) with (tv ts b j) in *. change (V (tri_at ts a) (nxt i)) with (tv ts a (nxt i)) in *. change (V (tri_at ts a) (prv i)) with (tv ts a (prv i)) in *.
    set (p1 := tv ts a (nxt i)) in *. set (p2 := tv ts a (prv i)) in *. set (op := tv ts b j) in *.
    pose proof (cor_start points PP NC ts S ep eq p1 p2 a i HP HV HSL FT eq_refl eq_refl Sa) as CO.
    destruct (cor_exit points ts S ep eq p1 p2 a i HP HSL _ _ _ CO) as [TC Sx]. assert (Sb : S b) by (apply (Sx (b, j)); exact PR). clear Sx.
    assert (Nba : b <> a) by (apply (st_YH points ts S ep eq p1 p2 a i HP HSL _ _ _ b j CO PR)).
    destruct (in_scan_area pp pb pc pd) eqn:E11.
    + destruct (SC _ _ _ _ _ _ _ _ E5 E7 E9 E10 E11) as [S1 S2].
      assert (C1 : ccw3 zc (tv ts a (prv i)) (tv ts a i) (tv ts b j)).
      { unfold ccw3. rewrite <- PI. rewrite <- orient_rot. exact S2. }
      assert (C2 : ccw3 zc (tv ts a (nxt i)) (tv ts b j) (tv ts a i)).
      { unfold ccw3. rewrite <- PI. rewrite orient_rot', orient_swap. fold op p1. lia. }
      pose proof K as (Qn & -> & K1 & K2 & K3 & K4 & K5 & K6).
      apply wp_bind. eapply wp_mono with (F := fun _ _ => False); [|intros ? ? []|].
      { rewrite PI. apply (flip_pair_wp dbg points PP D Qn a i b j s K3 PR C1 C2). }
      intros ? s1 (ts' & af' & need & -> & FS & K3' & SN).
      pose proof (fs_len _ _ _ _ _ _ _ _ _ _ FS) as LL'. fold ts in FS, LL'.
      assert (EP1 : EP D n ns (map Some Qn ++ [Some a; Some b]) (mkSw ts' af' (s_result s) (s_trace s))).
      { exists (Qn ++ [a; b]). split; [rewrite map_app; reflexivity|]. split; [exact K1|]. split; [exact K2|].
        split; [|split; [apply Forall_app; split; auto; repeat constructor; rewrite <- LL; auto|split; [exact (eq_trans LL' LL)|exact (same_trans _ _ _ K6 SN)]]].
        destruct K3' as [M' DF DB B FO W AG]. constructor; auto. cbn [s_tris s_front].
        intros x1 y1 BD. destruct (DB x1 y1 BD) as [X|X]; [left|right]; apply in_or_app; simpl in *; tauto. }
      assert (FLS : fl S ts ts') by (eapply fl_one; eauto; apply HP).
      cbv zeta. rewrite Nat.eqb_refl. cbn [andb].
      destruct (op =? ep) eqn:OE.
      * apply Nat.eqb_eq in OE.
        destruct m as [[[H h1] h2]|].
        -- assert (Nq : (eq =? q_id ce) = false).
           { apply Nat.eqb_neq. rewrite PI. apply (nf_q _ _ _ _ _ _ _ _ _ FM a i Sa La). eapply (nf_eq points S H h1 h2 ep eq); eauto. }
           rewrite Nq. cbn [andb]. apply wp_ret. split; [exact EP1|]. cbn [post s_tris]. split; [exact FLS|].
           assert (b = H) as <- by (eapply (nf_ep points S H h1 h2 ep eq); eauto).
           destruct (nf_Hv _ _ _ _ _ _ _ _ _ FM) as (k & Hk & Hk1 & Hk2).
           assert (k = j) as ->. { apply (tv_inj (m_ccw M b Lb)). fold op. congruence. }
           destruct (fs_a _ _ _ _ _ _ _ _ _ _ FS) as (A1 & A2 & A3). destruct (fs_b _ _ _ _ _ _ _ _ _ _ FS) as (B1 & B2 & B3).
           exists a, i, j. split; [exact (fs_diag _ _ _ _ _ _ _ _ _ _ FS)|]. split; auto. unfold p1, p2, op in *. split; [congruence|]. split; [congruence|]. split; [congruence|]. congruence.
        -- destruct ((eq =? q_id ce) && (ep =? p_id ce)) eqn:EE.
           ++ destruct EP1 as (Qn' & EQ' & Y1 & Y2 & Y3 & Y4 & Y5 & Y6). rewrite EQ'. cbn [s_tris s_front s_trace] in *.
              apply wp_bind. eapply wp_mono; [apply (mark_flipped_wp points D Qn' a i b j ep eq (mkSw ts' af' (s_result s) (s_trace s)) Y3)|contradiction|].
              ** exact (fs_diag _ _ _ _ _ _ _ _ _ _ FS).
              ** destruct (fs_a _ _ _ _ _ _ _ _ _ _ FS) as (_ & G2 & G3). unfold pedge. cbn [fst snd s_tris]. rewrite G2, G3. unfold p1, p2, op in *. congruence.
              ** destruct (fs_b _ _ _ _ _ _ _ _ _ _ FS) as (_ & G2 & G3). unfold pedge. cbn [fst snd s_tris]. rewrite G2, G3. unfold p1, p2, op in *. congruence.
              ** intros ? s2 (ts2 & -> & MM & K7 & ME & ON). apply wp_ret. cbn [s_tris s_front s_result s_trace] in *. split.
                 --- exists Qn'. split; auto. split; [exact Y1|]. split; [exact Y2|]. split; [exact K7|]. split; auto. split; [exact (eq_trans (al_len _ _ (mm_alike _ _ MM)) Y5)|exact Y6].
                 --- cbn [post]. exists ts'. auto.
           ++ apply wp_ret. split; [exact EP1|]. cbn [post s_tris]. exists ts'. split; auto. split; [apply more_refl|]. intros P HPP. auto.
      * apply Nat.eqb_neq in OE.
        assert (OF : off m (fun c => c = a \/ c = b)).
        { destruct m as [[[H h1] h2]|]; [|exact I]. cbn [off]. intros [Q|Q].
          - symmetry in Q. revert Q. eapply (nf_eq points S H h1 h2 ep eq); eauto.
          - destruct (nf_Hv _ _ _ _ _ _ _ _ _ FM) as (k & Hk & _). rewrite Q in Hk.
            destruct (ix_cases j k) as [->|[->| ->]].
            + apply OE. exact Hk.
            + apply (nf_noep points S H h1 h2 ep eq (q_id ce) ts HP F a i (prv i)); auto. fold p2. rewrite O2. exact Hk.
            + apply (nf_noep points S H h1 h2 ep eq (q_id ce) ts HP F a i (nxt i)); auto. fold p1. rewrite O1. exact Hk. }
        assert (FL2 : fl (fun c => c = a \/ c = b) ts ts') by (eapply fl_one; eauto; apply HP).
        assert (F' : frame m S ep eq (q_id ce) ts').
        { eapply (frame_fl points m S (fun c => c = a \/ c = b)); eauto. intros c [->| ->]; auto. }
        destruct (FI_flip ts ep eq a i b j need ts' FS FT) as [NX1 NX2]. fold op in NX1, NX2.
        apply wp_try; [auto|]. intros peq Z1. apply wp_try; [auto|]. intros pop Z2.
        apply wp_try; [auto|]. intros pep Z3. apply wp_try; [auto|]. intros o Z4.
        destruct (pt_done points PP _ _ Z1) as (Leq & F1 & Y1). destruct (pt_done points PP _ _ Z2) as (Lop & F2 & Y2). destruct (pt_done points PP _ _ Z3) as (Lep & F3 & Y3).
        apply orient_2d_done in Z4; auto. rewrite Y1, Y2, Y3 in Z4.
        assert (NZ : orient (zc eq) (zc op) (zc ep) <> 0%Z).
        { apply NC; auto. intro Q. apply (st_ne points ts S ep eq p1 p2 a i HP HSL _ _ _ b j CO PR). auto. }
        unfold next_flip_triangle. destruct (Z.compare_spec (orient (zc eq) (zc op) (zc ep)) 0) as [Y|Y|Y]; [contradiction| |]; subst o; cbn [is_ccw].
        -- eapply wp_mono; [apply IH2 with (m := m) (S := S) (i := prv j); auto|auto|].
           ++ rewrite (eq_refl : [Some a] = map Some [a]). apply EP_app; auto. constructor; auto. rewrite <- LL; auto.
           ++ cbn [s_tris]. intros queue' s' [H1 H2]. split; auto. eapply post_pre; eauto.
        -- eapply wp_mono; [apply IH2 with (m := m) (S := S) (i := nxt i); auto|auto|].
           ++ rewrite (eq_refl : [Some b] = map Some [b]). apply EP_app; auto. constructor; auto. rewrite <- LL; auto.
           ++ cbn [s_tris]. intros queue' s' [H1 H2]. split; auto. eapply post_pre; eauto.
    + assert (OUT : ~ cone eq p1 p2 op) by (intro Q; apply (scan_cone points eq p1 p2 op pp pb pc pd SX E5 E7 E9 E10) in Q; congruence).
      apply wp_bind. eapply wp_mono; [apply (nfp_wp ep eq b j s M Lb)|auto|]. intros new_p s1 [-> NP]. cbv zeta in NP. fold ts op in NP.
      apply wp_bind.
      assert (X : wp (flip_scan_edge_event dbg points f ep eq ce (Some a) (Some b) new_p queue) s (fun _ _ => True)
        (fun queue' s' => EP D n ns queue' s' /\ spost m S ep eq p1 p2 a (s_tris s) (s_tris s'))).
      { destruct NP as [[O ->]|[O ->]].
        - apply (IH3 m S ep eq ce p1 p2 a i [b; a] b (prv j)); auto. apply (st_right points PP NC ts S ep eq p1 p2 a i HP HV HSL [a] a i b j CO PR OUT O).
        - apply (IH3 m S ep eq ce p1 p2 a i [b; a] b (nxt j)); auto. apply (st_left points PP NC ts S ep eq p1 p2 a i HP HV HSL [a] a i b j CO PR OUT O). }
      eapply wp_mono; [exact X|auto|]. intros queue1 s1 [K1 SP]. cbv beta. pose proof SP as (S' & d & G & i' & j' & HS & OF & FL & _). fold ts in FL.
      assert (F' : frame m S ep eq (q_id ce) (s_tris s1)) by (eapply frame_fl; eauto).
      eapply wp_mono; [apply IH1 with (m := m) (S := S); auto|auto|].
      * eapply spost_ready; eauto. eapply EP_PL; eauto.
      * intros queue' s' [H1 H2]. split; auto. eapply post_pre; eauto. eapply fl_mono; eauto.
  - intros m S ep eq ce p1 p2 H i C X k queue s K F CO XH. cbn [flip_scan_edge_event].
    pose proof (EP_PL _ _ _ _ _ K) as HP. pose proof F as (NE & HSL & FM). pose proof (frame_vertex _ _ _ _ _ _ _ F) as HV.
    set (ts := s_tris s) in *. pose proof (pl_mesh _ _ HP) as M.
    assert (LX : X < length ts) by (apply (co_in _ _ _ _ _ _ _ _ _ _ _ _ CO X); apply CO).
    assert (LH : H < length ts) by (apply (co_in _ _ _ _ _ _ _ _ _ _ _ _ CO H); apply CO).
    assert (DX : distinct (tri_at ts X)) by apply (mesh_dist M LX). assert (DH : distinct (tri_at ts H)) by apply (mesh_dist M LH).
    apply wp_bind, wp_get_tris. fold ts.
    apply wp_try; [auto|]. intros t E1. unfold ts_get_unchecked in E1. apply not_valid in E1 as (a' & Q & _ & ->). injection Q as <-.
    apply wp_try; [auto|]. intros ot_id E2. unfold tv in E2. rewrite (neighbor_across_V _ _ DX) in E2. injection E2 as E2.
    destruct (tid_invalid ot_id); [apply wp_panic; exact I|].
    apply wp_try; [auto|]. intros ot E3. unfold ts_get_unchecked in E3. apply not_valid in E3 as (b & -> & Lb & ->).
    destruct (m_adj M X k b LX E2) as [j PR]. pose proof PR as (_ & _ & _ & _ & O1 & O2).
    assert (Db : distinct (tri_at ts b)) by apply (mesh_dist M Lb).
    apply wp_bind, wp_lift. unfold tv at 1. rewrite (opposite_point_V (tri_at ts X) (tri_at ts b) k j DX Db O2). cbn [okr].
    apply wp_try; [auto|]. intros ft' E5. unfold ts_get_unchecked in E5. apply not_valid in E5 as (a' & Q & _ & ->). injection Q as <-.
    destruct (co_He _ _ _ _ _ _ _ _ _ _ _ _ CO) as (H0 & H1 & H2).
    apply wp_try; [auto|]. intros q1 E6. rewrite <- H0 in E6. unfold tv in E6. rewrite (point_ccw_V _ _ DH) in E6. injection E6 as E6. change (tv ts H (nxt i) = q1) in E6.
    apply wp_try; [auto|]. intros q2 E7. rewrite <- H0 in E7. unfold tv in E7. rewrite (point_cw_V _ _ DH) in E7. injection E7 as E7. change (tv ts H (prv i) = q2) in E7.
    rewrite H1 in E6. rewrite H2 in E7. subst q1 q2.
    apply wp_try; [auto|]. intros peq E8. apply wp_try; [auto|]. intros pp1 E9.
    apply wp_try; [auto|]. intros pp2 E10. apply wp_try; [auto|]. intros pop E12.
    change (V (tri_at ts b) j) with (tv ts b j) in *.
    destruct (in_scan_area peq pp1 pp2 pop) eqn:E11.
    + assert (DC : cone eq p1 p2 (tv ts b j)) by (apply (scan_cone points eq p1 p2 (tv ts b j) peq pp1 pp2 pop SX E8 E9 E10 E12); exact E11).
      destruct (start_frame points PP NC m S ep eq (q_id ce) ts HP F p1 p2 H i C X k b j CO PR XH DC) as [F' FT].
      eapply wp_mono; [apply (IH2 (Some (H, p1, p2)) (fun c => In c (b :: C)) eq (tv ts b j) ce b j queue s K F'); auto; left; reflexivity|auto|].
      intros queue' s' [K' (FL & G & i' & j' & R1 & R2 & R3 & R4 & R5 & R6)]. split; auto. fold ts in FL.
      exists (fun c => In c (b :: C)), (tv ts b j), G, i', j'. split; [apply (start_sub points m S ep eq (q_id ce) ts HP F p1 p2 H i C X k b j CO PR)|].
      split; [apply (start_off points PP NC m S ep eq (q_id ce) ts HP F p1 p2 H i C X k b j CO PR XH DC)|].
      repeat (split; auto). destruct m as [[[HH h1] h2]|]; [|congruence]. intros _. eapply (sub_d points PP NC S HH h1 h2 ep eq (q_id ce) ts HP F); eauto.
    + assert (OUT : ~ cone eq p1 p2 (tv ts b j)) by (intro Q; apply (scan_cone points eq p1 p2 (tv ts b j) peq pp1 pp2 pop SX E8 E9 E10 E12) in Q; congruence).
      apply wp_bind. eapply wp_mono; [apply (nfp_wp ep eq b j s M Lb)|auto|]. intros new_p s1 [-> NP]. cbv zeta in NP. fold ts in NP.
      pose proof (st_YH points ts S ep eq p1 p2 H i HP HSL C X k b j CO PR) as NBH.
      destruct NP as [[O ->]|[O ->]].
      * apply (IH3 m S ep eq ce p1 p2 H i (b :: C) b (prv j)); auto. apply (st_right points PP NC ts S ep eq p1 p2 H i HP HV HSL C X k b j CO PR OUT O).
      * apply (IH3 m S ep eq ce p1 p2 H i (b :: C) b (nxt j)); auto. apply (st_left points PP NC ts S ep eq p1 p2 H i HP HV HSL C X k b j CO PR OUT O).
Qed.
End S.
