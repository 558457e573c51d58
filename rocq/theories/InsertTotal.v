(** * InsertTotal: inserting an edge terminates without a panic

    In general position, if no marked edge and no edge of the boundary crosses
    the new one. *)
From Coq Require Import List Arith Bool Lia ZArith.
From Verif Require Import Base Num Shape ShapeSpec Utils Points Triangles Front Sweeper Cdt Lists Monad Traverse Exact
  FrontSpec Geom Mesh Rotate Setup Legal Legalize Boundary Chain Winding Cover CoverRun Remap Attach FrontInv Disc Good Marks Flips LegalTotal Cone Planar Corridor Frames Insert Total NoCross CorTotal.
Import ListNotations.

Lemma NoDup_bound (l : list nat) n : NoDup l -> (forall c, In c l -> c < n) -> length l <= n.
Proof. intros ND H. rewrite <- (seq_length n 0). apply NoDup_incl_length; auto. intros c Hc. apply in_seq. specialize (H c Hc). lia. Qed.
Lemma remove_len (x : nat) l : In x l -> length (remove Nat.eq_dec x l) < length l.
Proof.
  induction l as [|a l IH]; [intros []|]. intro I. simpl. destruct (Nat.eq_dec x a) as [->|Na].
  - pose proof (remove_length_le Nat.eq_dec l a). simpl. lia.
  - destruct I as [->|I]; [congruence|]. specialize (IH I). simpl. lia.
Qed.

Section S.
Context {A : Arith} {E : Exact A}.
Variable dbg : bool.
Variable points : Points.
Hypothesis PP : proper points.
Hypothesis NC : nocol points.
Hypothesis SX : scan_exact points.
Notation N := (npts points).
Notation zc := (zc points).
Notation fl := (fl N zc).
Notation SL := (SL zc).
Notation PL := (PL points).
Notation FI := (FI points).
Notation Cor := (Cor points).
Notation CT := (CT points).
Notation CR := (CR zc).
Notation kap := (kap points).
Notation frame := (frame points).
Notation EP := (EP points).
Notation cone a b c d := (in_cone (zc a) (zc b) (zc c) (zc d)).
Notation never := (fun (_ : failure) (_ : Sweeper) => False).

Lemma wp_ok {T U} (r : res T) x (k : T -> M U) s F (Q : U -> Sweeper -> Prop) : r = Done x -> wp (k x) s F Q -> wp (bind (lift r) k) s F Q.
Proof using. intros -> H. apply wp_bind, wp_lift. exact H. Qed.
Lemma wp_pt {U} v (k : Point -> M U) s F (Q : U -> Sweeper -> Prop) : v < N ->
  (forall p, pt points v = Done p -> nth_error (ps_points points) v = Some p -> wp (k p) s F Q) -> wp (bind (lift (pt points v)) k) s F Q.
Proof using PP. intros L H. destruct (pt_fin points PP v L) as (p & H1 & H2 & _). apply (wp_ok _ p); auto. Qed.

(** the next point of a scan *)
Lemma nfp_tot ep eq b j s : mesh N zc (s_tris s) -> b < length (s_tris s) -> ep < N -> eq < N -> ep <> eq -> tv (s_tris s) b j <> eq -> tv (s_tris s) b j <> ep ->
  wp (next_flip_point dbg points ep eq (Some b) (tv (s_tris s) b j)) s never (fun _ _ => True).
Proof using PP NC.
  intros M Lb Lep Leq N1 N2 N3. pose proof (m_range M b j Lb) as Lo. unfold next_flip_point.
  apply wp_pt; auto. intros pq _ E1. apply wp_pt; auto. intros po _ E2. apply wp_pt; auto. intros pp _ E3.
  eapply wp_ok; [apply (orient_pts dbg points PP eq (tv (s_tris s) b j) ep); auto|].
  apply wp_bind, wp_get_tris. eapply wp_ok; [unfold ts_get_unchecked; apply ts_get_at; auto|].
  assert (Db : distinct (tri_at (s_tris s) b)) by apply (mesh_dist M Lb).
  assert (NZ : orient (zc eq) (zc (tv (s_tris s) b j)) (zc ep) <> 0%Z) by (apply NC; auto).
  destruct (Z.compare_spec (orient (zc eq) (zc (tv (s_tris s) b j)) (zc ep)) 0); [contradiction| |]; unfold tv.
  - rewrite point_ccw_V by auto. apply wp_lift. exact I.
  - rewrite point_cw_V by auto. apply wp_lift. exact I.
Qed.

(** ** one step of the search around the upper end *)
Lemma proc_mark f ep eq ce a queue s : mesh N zc (s_tris s) -> a < length (s_tris s) -> edge_index (tri_at (s_tris s) a) ep eq <> None ->
  wp (edge_event_process dbg points (S f) ep eq ce (Some a) eq queue) s never (fun _ _ => True).
Proof using.
  intros M La EI. cbn [edge_event_process]. eapply wp_ok; [reflexivity|].
  apply wp_bind. eapply wp_mono; [apply (try_mark_wp points ep eq a s M La)|auto|]. intros [] s1 H; cbv beta iota in H; [apply wp_ret; exact I|]. destruct H. contradiction.
Qed.
Lemma proc_go f ep eq ce a i queue s F (Q : list tid -> Sweeper -> Prop) : mesh N zc (s_tris s) -> a < length (s_tris s) -> tv (s_tris s) a i = eq -> ep <> eq -> ep < N ->
  let p1 := tv (s_tris s) a (nxt i) in let p2 := tv (s_tris s) a (prv i) in
  (cone eq p1 p2 ep /\ wp (flip_edge_event dbg points f ep eq ce (Some a) eq queue) s F Q) \/
  ((orient (zc eq) (zc p1) (zc ep) < 0)%Z /\ (orient (zc eq) (zc p2) (zc ep) < 0)%Z /\
     exists G, tn (s_tris s) a (prv i) = Some G /\ wp (edge_event_process dbg points f ep eq ce (Some G) eq queue) s F Q) ->
  wp (edge_event_process dbg points (S f) ep eq ce (Some a) eq queue) s F Q.
Proof using PP.
  intros M La Ei NE Lep p1 p2 CASE. set (ts := s_tris s) in *.
  assert (NZ : (orient (zc eq) (zc p1) (zc ep) <> 0 /\ orient (zc eq) (zc p2) (zc ep) < 0)%Z) by (destruct CASE as [[[C1 C2] _]|(C1 & C2 & _)]; lia).
  destruct NZ as [Z1 Z2].
  assert (P1 : p1 <> ep) by (intro Q0; rewrite Q0, (proj2 (proj2 (orient_diag _ _))) in Z1; lia).
  assert (P2 : p2 <> ep) by (intro Q0; rewrite Q0, (proj2 (proj2 (orient_diag _ _))) in Z2; lia).
  assert (Da : distinct (tri_at ts a)) by apply (mesh_dist M La).
  pose proof (m_range M a i La) as Leq. rewrite Ei in Leq. pose proof (m_range M a (nxt i) La) as L1. pose proof (m_range M a (prv i) La) as L2. fold p1 in L1. fold p2 in L2.
  assert (X1 : eq <> p1). { intro Q0. rewrite <- Ei in Q0. apply Da in Q0. destruct i; discriminate. }
  assert (X2 : eq <> p2). { intro Q0. rewrite <- Ei in Q0. apply Da in Q0. destruct i; discriminate. }
  cbn [edge_event_process]. eapply wp_ok; [reflexivity|].
  apply wp_bind. eapply wp_mono; [apply (try_mark_wp points ep eq a s M La)|contradiction|]. intros [] s1 HM; cbv beta iota in HM.
  { exfalso. destruct HM as (ts' & _ & _ & _ & _ & _ & EI). fold ts in EI. destruct (edge_index (tri_at ts a) ep eq) as [l|] eqn:EQ; [|congruence].
    apply edge_index_some in EQ. assert (IE : exists l', tv ts a l' = ep). { destruct EQ as [[Q1 _]|[Q1 _]]; eexists; symmetry; exact Q1. }
    destruct IE as [l' IE]. destruct (ix_cases i l') as [->|[->| ->]]; [congruence|apply P1; exact IE|apply P2; exact IE]. }
  destruct HM as [-> EI].
  apply wp_bind, wp_get_tris. fold ts. eapply wp_ok; [apply ts_mut_at; auto|].
  eapply wp_ok; [rewrite <- Ei; apply (point_ccw_V _ _ Da)|]. change (V (tri_at ts a) (nxt i)) with p1.
  apply wp_pt; auto. intros peq _ E2. apply wp_pt; auto. intros pp1 _ E3. apply wp_pt; auto. intros pep _ E4.
  eapply wp_ok; [apply (orient_pts dbg points PP eq p1 ep); auto|].
  destruct (is_collinear (match (orient (zc eq) (zc p1) (zc ep) ?= 0)%Z with Gt => CCW | Lt => CW | Eq => Collinear end)) eqn:C1.
  { exfalso. destruct (Z.compare_spec (orient (zc eq) (zc p1) (zc ep)) 0); try discriminate. contradiction. }
  eapply wp_ok; [rewrite <- Ei; apply (point_cw_V _ _ Da)|]. change (V (tri_at ts a) (prv i)) with p2.
  apply wp_pt; auto. intros pp2 _ E7.
  eapply wp_ok; [apply (orient_pts dbg points PP eq p2 ep); auto|].
  rewrite (proj2 (Z.compare_lt_iff (orient (zc eq) (zc p2) (zc ep)) 0)) by exact Z2. cbn [is_collinear].
  destruct CASE as [[[Y1 Y2] W]|(Y1 & Y2 & G & TG & W)].
  - rewrite (proj2 (Z.compare_gt_iff (orient (zc eq) (zc p1) (zc ep)) 0)) by exact Y1. cbn [orientation_eqb]. exact W.
  - rewrite (proj2 (Z.compare_lt_iff (orient (zc eq) (zc p1) (zc ep)) 0)) by exact Y1. cbn [orientation_eqb is_cw].
    eapply wp_ok; [rewrite <- Ei; apply (neighbor_ccw_V _ _ Da)|]. change (NB (tri_at ts a) (prv i)) with (tn ts a (prv i)). rewrite TG. exact W.
Qed.

(** ** fuel *)
Definition BB (n d : nat) : nat := d * (n + 3 * N + 5).
Lemma BB_S n d : BB n (S d) = BB n d + (n + 3 * N + 5). Proof using. unfold BB. lia. Qed.
(** how often insertions can be nested *)
Definition dm (m : mode) (S : nat -> Prop) (n d : nat) : Prop :=
  match m with None => d = n + 1 | Some _ => exists l, length l <= d /\ forall c, S c -> c < n -> In c l end.
Lemma dm_pos m S n d ep eq qid ts : length ts = n -> frame m S ep eq qid ts -> dm m S n d -> exists d', d = Datatypes.S d'.
Proof using.
  intros LL (_ & _ & F) H. destruct m as [[[H' h1] h2]|]; cbn [dm] in H; [|exists n; lia]. destruct H as (l & L & I0). destruct (nf_H _ _ _ _ _ _ _ _ _ F) as [SH LH].
  unfold TriangleStore in *. rewrite LL in LH. specialize (I0 _ SH LH). destruct l; [destruct I0|]. destruct d; [cbn in L; lia|eauto].
Qed.
Lemma dm_next m (S S' : nat -> Prop) n d ep eq qid ts : length ts = n -> frame m S ep eq qid ts -> off m S' -> (forall c, S' c -> S c) -> dm m S n (Datatypes.S d) ->
  exists l, length l <= d /\ forall c, S' c -> c < n -> In c l.
Proof using.
  intros LL (_ & _ & F) OF HS H. destruct m as [[[H' h1] h2]|]; cbn [dm off] in *.
  - destruct H as (l & L & I0). destruct (nf_H _ _ _ _ _ _ _ _ _ F) as [SH LH]. unfold TriangleStore in *. rewrite LL in LH.
    exists (remove Nat.eq_dec H' l). split; [pose proof (remove_len _ _ (I0 _ SH LH)); lia|].
    intros c Sc Lc. apply in_in_remove; auto. intros ->. auto.
  - exists (seq 0 n). rewrite seq_length. split; [lia|]. intros c _ Lc. apply in_seq. lia.
Qed.

(** where edge_event_process may be started, and the fuel it needs *)
Definition go (S : nat -> Prop) (n d ep eq : nat) (ts : TriangleStore) (t fuel : nat) : Prop :=
  (edge_index (tri_at ts t) ep eq <> None /\ t < length ts /\ 1 <= fuel) \/
  (exists i, S t /\ FI ts ep eq t i /\ BB n d + 3 * kap eq (tv ts t (nxt i)) (tv ts t (prv i)) + 2 <= fuel) \/
  (exists i G k, t < length ts /\ tv ts t i = eq /\ (orient (zc eq) (zc (tv ts t (nxt i))) (zc ep) < 0)%Z /\ (orient (zc eq) (zc (tv ts t (prv i))) (zc ep) < 0)%Z /\
     tn ts t (prv i) = Some G /\ S G /\ FI ts ep eq G k /\ BB n d + 3 * kap eq (tv ts G (nxt k)) (tv ts G (prv k)) + 3 <= fuel).
(** ... as it is after a scan *)
Lemma spost_go m (S : nat -> Prop) n d0 ep e qid p1 p2 H ts ts' fuel : PL ts' -> frame m S ep e qid ts' -> cone e p1 p2 ep -> S H ->
  spost points m S ep e p1 p2 H ts ts' -> (0 < orient (zc e) (zc p1) (zc p2))%Z -> BB n d0 + 3 * kap e p1 p2 <= fuel -> go S n d0 ep e ts' H fuel.
Proof using PP NC.
  intros HP F [C1 C2] SH (S' & d & G & i & j & HS & OF & FL & PR & SG & V1 & V2 & V3 & V4 & ND) H12 FU.
  assert (LH : H < length ts') by apply PR. assert (LG : G < length ts') by apply PR. pose proof PR as (_ & _ & _ & TN & O1 & O2).
  assert (DH : distinct (tri_at ts' H)) by apply (mesh_dist (pl_mesh _ _ HP) LH).
  pose proof (vertex_lt points ts' ep HP (frame_vertex _ _ _ _ _ _ _ F)) as Lep.
  pose proof (m_range (pl_mesh _ _ HP) H (nxt j) LH) as Le. pose proof (m_range (pl_mesh _ _ HP) H (prv j) LH) as Ld. rewrite V3 in Le. rewrite V4 in Ld.
  assert (Ned : e <> d). { intro Q. rewrite <- V3, <- V4 in Q. apply (tv_inj (m_ccw (pl_mesh _ _ HP) H LH)) in Q. destruct j; discriminate. }
  assert (Z1 : tv ts' G (prv i) = e) by congruence. assert (Z2 : tv ts' G (nxt i) = d) by congruence.
  assert (DC : cone e p1 p2 d).
  { pose proof (pl_ccw points ts' H (nxt j) HP LH) as A1. rewrite nxt_nxt, prv_nxt, V2, V3, V4 in A1. pose proof (pl_ccw points ts' G (prv i) HP LG) as A2. rewrite nxt_prv, prv_prv, V1, Z1, Z2 in A2.
    split; auto. rewrite orient_swap'. lia. }
  destruct (kap_split points e p1 p2 d Ld H12 DC) as [K1 K2].
  destruct (Nat.eq_dec d ep) as [->|N1].
  { left. split; [|split; [auto|lia]]. destruct (edge_index_V (tri_at ts' H) j DH) as [_ Q]. change (V (tri_at ts' H) (nxt j)) with (tv ts' H (nxt j)) in Q. change (V (tri_at ts' H) (prv j)) with (tv ts' H (prv j)) in Q.
    rewrite V3, V4 in Q. rewrite Q. discriminate. }
  right.
  assert (NZ : orient (zc e) (zc d) (zc ep) <> 0%Z). { apply NC; auto. intro Q. apply (proj1 F). auto. }
  destruct (Z_lt_le_dec 0 (orient (zc e) (zc d) (zc ep))) as [G1|G1].
  - left. exists (nxt j). split; auto. rewrite nxt_nxt, prv_nxt, V2, V4. split; [|lia]. split; auto. split; auto. rewrite nxt_nxt, prv_nxt, V2, V4. split; auto.
  - right. exists (nxt j), G, (prv i). rewrite nxt_nxt, prv_nxt, nxt_prv, prv_prv, V1, V2, V4, Z2. split; auto. split; auto. split; [lia|]. split; auto. split; [exact TN|].
    split; auto. split; [|lia]. split; auto. split; auto. rewrite nxt_prv, prv_prv, V1, Z2. split; auto. lia.
Qed.

Lemma insert_tot D n ns : forall fuel,
  (forall m S d ep eq ce t queue s, EP D n ns queue s -> frame m S ep eq (q_id ce) (s_tris s) -> CR S ep eq (s_tris s) -> dm m S n d -> go S n d ep eq (s_tris s) t fuel ->
     wp (edge_event_process dbg points fuel ep eq ce (Some t) eq queue) s never (fun _ _ => True)) /\
  (forall m S d ep eq ce t i queue s, EP D n ns queue s -> frame m S ep eq (q_id ce) (s_tris s) -> CR S ep eq (s_tris s) -> dm m S n d -> S t -> FI (s_tris s) ep eq t i ->
     BB n d + 3 * kap eq (tv (s_tris s) t (nxt i)) (tv (s_tris s) t (prv i)) + 1 <= fuel ->
     wp (flip_edge_event dbg points fuel ep eq ce (Some t) eq queue) s never (fun _ _ => True)) /\
  (forall m S d ep eq ce p1 p2 H i C X k queue s, EP D n ns queue s -> frame m S ep eq (q_id ce) (s_tris s) -> CR S ep eq (s_tris s) -> dm m S n (Datatypes.S d) ->
     Cor (s_tris s) S ep eq p1 p2 H i C X k -> CT (s_tris s) eq p1 p2 H C X k -> X <> H -> n - length C + BB n d + 3 * N + 2 <= fuel ->
     wp (flip_scan_edge_event dbg points fuel ep eq ce (Some H) (Some X) (tv (s_tris s) X k) queue) s never (fun _ _ => True)).
Proof using PP NC SX.
  assert (SC := scan_exact_sound points SX).
  induction fuel as [|f (IH1 & IH2 & IH3)].
  { split; [|split]; intros; exfalso; try lia. match goal with H : go _ _ _ _ _ _ _ _ |- _ => destruct H as [(_ & _ & Q)|[(? & _ & _ & Q)|(? & ? & ? & _ & _ & _ & _ & _ & _ & _ & Q)]]; lia end. }
  pose proof (insert_wp dbg points PP NC SX D n ns f) as (W1 & W2 & W3).
  split; [|split].
  - intros m S d ep eq ce t queue s K F HCR DM GO.
    pose proof (EP_PL points NC _ _ _ _ _ K) as HP. pose proof (pl_mesh _ _ HP) as M. pose proof F as (NE & HSL & FM). pose proof (frame_vertex _ _ _ _ _ _ _ F) as HV.
    pose proof (vertex_lt points _ ep HP HV) as Lep.
    destruct GO as [(EI & Lt & _)|[(i & St & FT & FU)|(i & G & k & Lt & Ei & O1 & O2 & TG & SG & FG & FU)]].
    + apply proc_mark; auto.
    + pose proof FT as (Lt & Ei & CE). apply (proc_go f ep eq ce t i); auto. left. split; auto. apply (IH2 m S d ep eq ce t i); auto. lia.
    + apply (proc_go f ep eq ce t i); auto. right. split; auto. split; auto. exists G. split; auto. apply (IH1 m S d); auto. right. left. exists k. split; auto. split; auto. lia.
  - intros m S d ep eq ce a i queue s K F HCR DM Sa FT FU. cbn [flip_edge_event].
    pose proof (EP_PL points NC _ _ _ _ _ K) as HP. pose proof (EP_len points _ _ _ _ _ K) as LL. pose proof F as (NE & HSL & FM). pose proof (frame_vertex _ _ _ _ _ _ _ F) as HV.
    set (ts := s_tris s) in *. pose proof (pl_mesh _ _ HP) as M. pose proof FT as (La & PI & CE). symmetry in PI.
    pose proof (vertex_lt points _ ep HP HV) as Lep.
    assert (Da : distinct (tri_at ts a)) by apply (mesh_dist M La).
    pose proof (cor_start points PP NC ts S ep eq (tv ts a (nxt i)) (tv ts a (prv i)) a i HP HV HSL FT eq_refl eq_refl Sa) as CO.
    pose proof (ct_start points ts ep eq (tv ts a (nxt i)) (tv ts a (prv i)) a i HP FT eq_refl eq_refl) as CTs.
    destruct (ct_exit points ts S ep eq _ _ a i HP HCR _ _ _ CO) as (b & j & PR). pose proof PR as (_ & Lb & TN & _ & O1 & O2).
    assert (Db : distinct (tri_at ts b)) by apply (mesh_dist M Lb).
    pose proof (m_range M a i La) as Leq. rewrite <- PI in Leq. pose proof (m_range M a (nxt i) La) as L1. pose proof (m_range M a (prv i) La) as L2. pose proof (m_range M b j Lb) as Lop.
    apply wp_bind, wp_get_tris. fold ts.
    eapply wp_ok; [unfold ts_get_unchecked; apply ts_get_at; auto|]. eapply wp_ok; [rewrite PI at 1; apply (neighbor_across_V _ _ Da)|].
    change (NB (tri_at ts a) i) with (tn ts a i). rewrite TN. eapply wp_ok; [apply ts_get_at; auto|].
    eapply wp_ok; [rewrite PI at 1; apply (opposite_point_V (tri_at ts a) (tri_at ts b) i j Da Db O2)|].
    apply wp_pt; auto. intros pp E5 _. eapply wp_ok; [rewrite PI at 1; apply (point_ccw_V _ _ Da)|].
    apply wp_pt; auto. intros pb E7 _. eapply wp_ok; [rewrite PI at 1; apply (point_cw_V _ _ Da)|].
    apply wp_pt; auto. intros pc E9 _. apply wp_pt; auto. intros pd E10 _.
    change (V (tri_at ts b) j) with (tv ts b j) in *. change (V (tri_at ts a) (nxt i)) with (tv ts a (nxt i)) in *. change (V (tri_at ts a) (prv i)) with (tv ts a (prv i)) in *.
    set (p1 := tv ts a (nxt i)) in *. set (p2 := tv ts a (prv i)) in *. set (op := tv ts b j) in *.
    destruct (cor_exit points ts S ep eq p1 p2 a i HP HSL _ _ _ CO) as [TC Sx]. assert (Sb : S b) by (apply (Sx (b, j)); exact PR). clear Sx.
    assert (Nba : b <> a) by (apply (st_YH points ts S ep eq p1 p2 a i HP HSL _ _ _ b j CO PR)).
    pose proof (st_ne points ts S ep eq p1 p2 a i HP HSL _ _ _ b j CO PR) as NOE.
    assert (H12 : (0 < orient (zc eq) (zc p1) (zc p2))%Z) by (rewrite PI; apply (pl_ccw points ts a i HP La)).
    destruct (in_scan_area pp pb pc pd) eqn:E11.
    + destruct (SC _ _ _ _ _ _ _ _ E5 E7 E9 E10 E11) as [S1 S2].
      assert (DC : cone eq p1 p2 op) by (apply (scan_cone points eq p1 p2 op pp pb pc pd SX E5 E7 E9 E10); exact E11).
      assert (C1 : ccw3 zc (tv ts a (prv i)) (tv ts a i) (tv ts b j)).
      { unfold ccw3. rewrite <- PI. rewrite <- orient_rot. exact S2. }
      assert (C2 : ccw3 zc (tv ts a (nxt i)) (tv ts b j) (tv ts a i)).
      { unfold ccw3. rewrite <- PI. rewrite orient_rot', orient_swap. fold op p1. lia. }
      pose proof K as (Qn & -> & K1 & K2 & K3 & K4 & K5 & K6).
      apply wp_bind. eapply wp_mono with (F := fun _ _ => False); [|intros ? ? []|].
      { rewrite PI. apply (flip_pair_wp dbg points PP D Qn a i b j s K3 PR C1 C2). }
      intros ? s1 (ts' & af' & need & -> & FS & K3' & SN).
      pose proof (fs_len _ _ _ _ _ _ _ _ _ _ FS) as LL'. fold ts in FS, LL'.
      assert (EP1 : EP D n ns (map Some Qn ++ [Some a; Some b]) (mkSw ts' af' (s_result s) (s_trace s))).
      { exists (Qn ++ [a; b]). split; [rewrite map_app; reflexivity|]. split; [exact K1|]. split; [exact K2|].
        split; [|split; [apply Forall_app; split; auto; repeat constructor; rewrite <- LL; auto|split; [exact (eq_trans LL' LL)|exact (same_trans _ _ _ K6 SN)]]].
        destruct K3' as [M' DF DB B FO W AG]. constructor; auto. cbn [s_tris s_front].
        intros x1 y1 BD. destruct (DB x1 y1 BD) as [X|X]; [left|right]; apply in_or_app; simpl in *; tauto. }
      cbv zeta. rewrite Nat.eqb_refl. cbn [andb].
      destruct (op =? ep) eqn:OE.
      * apply Nat.eqb_eq in OE. destruct ((eq =? q_id ce) && (ep =? p_id ce)); [|apply wp_ret; exact I].
        destruct EP1 as (Qn' & EQ' & Y1 & Y2 & Y3 & Y4 & Y5 & Y6). rewrite EQ'. cbn [s_tris s_front s_trace] in *.
        apply wp_bind. eapply wp_mono; [apply (mark_flipped_wp points D Qn' a i b j ep eq (mkSw ts' af' (s_result s) (s_trace s)) Y3)|contradiction|].
        -- exact (fs_diag _ _ _ _ _ _ _ _ _ _ FS).
        -- destruct (fs_a _ _ _ _ _ _ _ _ _ _ FS) as (_ & G2 & G3). unfold pedge. cbn [fst snd s_tris]. rewrite G2, G3. unfold p1, p2, op in *. congruence.
        -- destruct (fs_b _ _ _ _ _ _ _ _ _ _ FS) as (_ & G2 & G3). unfold pedge. cbn [fst snd s_tris]. rewrite G2, G3. unfold p1, p2, op in *. congruence.
        -- intros ? s2 _. apply wp_ret. exact I.
      * apply Nat.eqb_neq in OE.
        assert (OF : off m (fun c => c = a \/ c = b)).
        { destruct m as [[[H h1] h2]|]; [|exact I]. cbn [off]. intros [Q|Q].
          - symmetry in Q. revert Q. eapply (nf_eq points S H h1 h2 ep eq); eauto.
          - destruct (nf_Hv _ _ _ _ _ _ _ _ _ FM) as (k & Hk & _). rewrite Q in Hk.
            destruct (ix_cases j k) as [->|[->| ->]].
            + apply OE. exact Hk.
            + apply (nf_noep points S H h1 h2 ep eq (q_id ce) ts HP F a i (prv i)); auto. fold p2. rewrite O2. exact Hk.
            + apply (nf_noep points S H h1 h2 ep eq (q_id ce) ts HP F a i (nxt i)); auto. fold p1. rewrite O1. exact Hk. }
        assert (FL2 : fl (fun c => c = a \/ c = b) ts ts') by (eapply fl_one; eauto; apply HP).
        assert (F' : frame m S ep eq (q_id ce) ts').
        { eapply (frame_fl points m S (fun c => c = a \/ c = b)); eauto. intros c [->| ->]; auto. }
        assert (HCR' : CR S ep eq ts') by (eapply CR_flip; eauto).
        destruct (FI_flip points ts ep eq a i b j need ts' FS FT) as [NX1 NX2]. fold op in NX1, NX2.
        destruct (kap_split points eq p1 p2 op Lop H12 DC) as [KA KB].
        destruct (fs_a _ _ _ _ _ _ _ _ _ _ FS) as (A1 & A2 & A3). destruct (fs_b _ _ _ _ _ _ _ _ _ _ FS) as (B1 & B2 & B3).
        apply wp_pt; auto. intros peq _ Y1. apply wp_pt; auto. intros pop _ Y2. apply wp_pt; auto. intros pep _ Y3.
        assert (NOE' : eq <> op) by (intro Q; apply NOE; symmetry; exact Q). assert (NE' : eq <> ep) by congruence.
        eapply wp_ok; [apply (orient_pts dbg points PP eq op ep); auto|].
        assert (NZ : orient (zc eq) (zc op) (zc ep) <> 0%Z) by (apply NC; auto).
        unfold next_flip_triangle. destruct (Z.compare_spec (orient (zc eq) (zc op) (zc ep)) 0) as [Y|Y|Y]; [contradiction| |]; cbn [is_ccw].
        -- apply (IH2 m S d ep eq ce b (prv j)); auto.
           ++ rewrite (eq_refl : [Some a] = map Some [a]). apply EP_app; auto. constructor; auto. rewrite <- LL; auto.
           ++ cbn [s_tris]. rewrite nxt_prv, prv_prv, B1, B2. fold p1 op. lia.
        -- apply (IH2 m S d ep eq ce a (nxt i)); auto.
           ++ rewrite (eq_refl : [Some b] = map Some [b]). apply EP_app; auto. constructor; auto. rewrite <- LL; auto.
           ++ cbn [s_tris]. rewrite nxt_nxt, prv_nxt, A1, A3. fold p2 op. lia.
    + assert (OUT : ~ cone eq p1 p2 op) by (intro Q; apply (scan_cone points eq p1 p2 op pp pb pc pd SX E5 E7 E9 E10) in Q; congruence).
      assert (NOP : op <> ep) by (intro Q; apply OUT; rewrite Q; exact CE).
      destruct (dm_pos m S n d ep eq _ ts LL F DM) as [d' ->]. rewrite BB_S in FU.
      apply wp_bind. eapply wp_mono; [apply wp_and; [apply (nfp_tot ep eq b j s M Lb); auto|apply (nfp_wp dbg points PP ep eq b j s M Lb)]|intros ? ? [[] _]|].
      intros new_p s1 [_ [-> NP]]. cbv zeta in NP. fold ts op in NP.
      apply wp_bind.
      assert (X : wp (flip_scan_edge_event dbg points f ep eq ce (Some a) (Some b) new_p queue) s (fun f s => False /\ True)
        (fun queue' s' => True /\ (EP D n ns queue' s' /\ spost points m S ep eq p1 p2 a (s_tris s) (s_tris s')))).
      { destruct NP as [[O ->]|[O ->]].
        - assert (CO2 := st_right points PP NC ts S ep eq p1 p2 a i HP HV HSL [a] a i b j CO PR OUT O).
          apply wp_and; [apply (IH3 m S d' ep eq ce p1 p2 a i [b; a] b (prv j)); auto|apply (W3 m S ep eq ce p1 p2 a i [b; a] b (prv j)); auto].
          + apply (ct_step points ts S ep eq p1 p2 a i HP HSL [a] a i b j CO CTs PR (prv j)); auto.
          + cbn [length]. lia.
        - assert (CO2 := st_left points PP NC ts S ep eq p1 p2 a i HP HV HSL [a] a i b j CO PR OUT O).
          apply wp_and; [apply (IH3 m S d' ep eq ce p1 p2 a i [b; a] b (nxt j)); auto|apply (W3 m S ep eq ce p1 p2 a i [b; a] b (nxt j)); auto].
          + apply (ct_step points ts S ep eq p1 p2 a i HP HSL [a] a i b j CO CTs PR (nxt j)); auto.
          + cbn [length]. lia. }
      eapply wp_mono; [exact X|intros ? ? [[] _]|]. intros queue1 s1 [_ [K1 SP]]. cbv beta. pose proof SP as (S' & dd & G & i' & j' & HS & OF & FL & _). fold ts in FL.
      assert (F' : frame m S ep eq (q_id ce) (s_tris s1)) by (eapply frame_fl; eauto).
      apply (IH1 m S (Datatypes.S d')); auto.
      * eapply CR_fl; eauto.
      * eapply spost_go; eauto; [eapply EP_PL; eauto|rewrite BB_S; lia].
  - intros m S d ep eq ce p1 p2 H i C X k queue s K F HCR DM CO CC XH FU. cbn [flip_scan_edge_event].
    pose proof (EP_PL points NC _ _ _ _ _ K) as HP. pose proof (EP_len points _ _ _ _ _ K) as LL. pose proof F as (NE & HSL & FM). pose proof (frame_vertex _ _ _ _ _ _ _ F) as HV.
    set (ts := s_tris s) in *. pose proof (pl_mesh _ _ HP) as M. pose proof (vertex_lt points _ ep HP HV) as Lep.
    assert (LX : X < length ts) by (apply (co_in _ _ _ _ _ _ _ _ _ _ _ _ CO X); apply CO).
    assert (LH : H < length ts) by (apply (co_in _ _ _ _ _ _ _ _ _ _ _ _ CO H); apply CO).
    assert (DX : distinct (tri_at ts X)) by apply (mesh_dist M LX). assert (DH : distinct (tri_at ts H)) by apply (mesh_dist M LH).
    destruct (ct_exit points ts S ep eq _ _ H i HP HCR _ _ _ CO) as (b & j & PR). pose proof PR as (_ & Lb & TN & _ & O1 & O2).
    assert (Db : distinct (tri_at ts b)) by apply (mesh_dist M Lb).
    assert (NB : ~ In b C) by (eapply (ct_new points ts S ep eq p1 p2 H i HP HSL C X k b j); eauto).
    assert (LC : length C < n).
    { assert (ND : NoDup (b :: C)) by (constructor; auto; apply CC). assert (LB : length (b :: C) <= n); [|cbn [length] in LB; lia].
      apply NoDup_bound; auto. rewrite <- LL. intros c [<-|Hc]; auto. apply (co_in _ _ _ _ _ _ _ _ _ _ _ _ CO c Hc). }
    destruct (co_He _ _ _ _ _ _ _ _ _ _ _ _ CO) as (H0 & H1 & H2).
    pose proof (st_ne points ts S ep eq p1 p2 H i HP HSL _ _ _ b j CO PR) as NOE.
    pose proof (m_range M H i LH) as Leq. rewrite H0 in Leq. pose proof (m_range M H (nxt i) LH) as L1. rewrite H1 in L1. pose proof (m_range M H (prv i) LH) as L2. rewrite H2 in L2. pose proof (m_range M b j Lb) as Lop.
    apply wp_bind, wp_get_tris. fold ts.
    eapply wp_ok; [unfold ts_get_unchecked; apply ts_get_at; auto|]. eapply wp_ok; [unfold tv; apply (neighbor_across_V _ _ DX)|].
    change (ShapeSpec.NB (tri_at ts X) k) with (tn ts X k). rewrite TN. cbn [tid_invalid].
    eapply wp_ok; [unfold ts_get_unchecked; apply ts_get_at; auto|].
    eapply wp_ok; [unfold tv; apply (opposite_point_V (tri_at ts X) (tri_at ts b) k j DX Db O2)|].
    eapply wp_ok; [unfold ts_get_unchecked; apply ts_get_at; auto|].
    eapply wp_ok; [rewrite <- H0; apply (point_ccw_V _ _ DH)|]. eapply wp_ok; [rewrite <- H0; apply (point_cw_V _ _ DH)|].
    change (V (tri_at ts b) j) with (tv ts b j) in *. change (V (tri_at ts H) (nxt i)) with (tv ts H (nxt i)) in *. change (V (tri_at ts H) (prv i)) with (tv ts H (prv i)) in *. rewrite H1, H2.
    apply wp_pt; auto. intros peq E8 _. apply wp_pt; auto. intros pp1 E9 _. apply wp_pt; auto. intros pp2 E10 _. apply wp_pt; auto. intros pop E12 _.
    destruct (in_scan_area peq pp1 pp2 pop) eqn:E11.
    + assert (DC : cone eq p1 p2 (tv ts b j)) by (apply (scan_cone points eq p1 p2 (tv ts b j) peq pp1 pp2 pop SX E8 E9 E10 E12); exact E11).
      destruct (start_frame points PP NC m S ep eq (q_id ce) ts HP F p1 p2 H i C X k b j CO PR XH DC) as [F' FT].
      pose proof (ct_CR points ts S ep eq p1 p2 H i HP HSL C X k b j CO CC PR DC) as HCR'.
      assert (DM' : dm (Some (H, p1, p2)) (fun c => In c (b :: C)) n d).
      { cbn [dm]. eapply (dm_next m S); eauto; [apply (start_off points PP NC m S ep eq (q_id ce) ts HP F p1 p2 H i C X k b j CO PR XH DC)|].
        intro c. apply (start_sub points m S ep eq (q_id ce) ts HP F p1 p2 H i C X k b j CO PR). }
      apply (IH2 (Some (H, p1, p2)) (fun c => In c (b :: C)) d eq (tv ts b j) ce b j queue s K F' HCR' DM'); auto; [left; reflexivity|].
      pose proof (kap_le points (tv ts b j) (tv (s_tris s) b (nxt j)) (tv (s_tris s) b (prv j))). lia.
    + assert (OUT : ~ cone eq p1 p2 (tv ts b j)) by (intro Q; apply (scan_cone points eq p1 p2 (tv ts b j) peq pp1 pp2 pop SX E8 E9 E10 E12) in Q; congruence).
      assert (NOP : tv ts b j <> ep) by (intro Q; apply OUT; rewrite Q; apply CO).
      apply wp_bind. eapply wp_mono; [apply wp_and; [apply (nfp_tot ep eq b j s M Lb); auto|apply (nfp_wp dbg points PP ep eq b j s M Lb)]|intros ? ? [[] _]|].
      intros new_p s1 [_ [-> NP]]. cbv zeta in NP. fold ts in NP.
      pose proof (st_YH points ts S ep eq p1 p2 H i HP HSL C X k b j CO PR) as NBH.
      destruct NP as [[O ->]|[O ->]].
      * assert (CO2 := st_right points PP NC ts S ep eq p1 p2 H i HP HV HSL C X k b j CO PR OUT O).
        apply (IH3 m S d ep eq ce p1 p2 H i (b :: C) b (prv j)); auto; [|cbn [length]; lia].
        apply (ct_step points ts S ep eq p1 p2 H i HP HSL C X k b j CO CC PR (prv j)); auto.
      * assert (CO2 := st_left points PP NC ts S ep eq p1 p2 H i HP HV HSL C X k b j CO PR OUT O).
        apply (IH3 m S d ep eq ce p1 p2 H i (b :: C) b (nxt j)); auto; [|cbn [length]; lia].
        apply (ct_step points ts S ep eq p1 p2 H i HP HSL C X k b j CO CC PR (nxt j)); auto.
Qed.
End S.
