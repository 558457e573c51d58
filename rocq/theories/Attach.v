(** * Attach: adding a triangle to a consistent mesh along boundary edges *)
From Coq Require Import List Arith Bool Lia ZArith.
From Verif Require Import Base Num Shape ShapeSpec Utils Points Triangles Front Sweeper Monad Lists Exact FrontSpec Geom Mesh Rotate Setup Legal Legalize Boundary Chain.
Import ListNotations.

Section S.
Variables (N : nat) (zc : nat -> zpt) (ts : TriangleStore) (x y z : nat) (l : list (pos * pos)).
Notation n := (length ts).
Notation new := (tri_new x y z).
Notation t1 := (ts ++ [new]).
Hypothesis M : mesh N zc ts.
Hypothesis CC : ccw3 zc x y z.
Hypothesis RG : x < N /\ y < N /\ z < N.
Hypothesis HL : linkable (S n) l.
Hypothesis HO : forall X Y, In (X, Y) l -> opposed t1 (fst X) (snd X) (fst Y) (snd Y) /\
  ((fst X = n /\ bpos ts Y) \/ (bpos ts X /\ fst Y = n)).
Notation ts' := (links t1 l).

Lemma t1_len : length t1 = S n. Proof. rewrite app_length. apply Nat.add_1_r. Qed.
Lemma HL1 : linkable (length t1) l. Proof. rewrite t1_len. exact HL. Qed.
Lemma at_len : length ts' = S n. Proof using All. destruct (links_spec l t1 HL1) as (H & _). exact (eq_trans H t1_len). Qed.
Lemma at_tv c k : tv ts' c k = tv t1 c k. Proof using All. destruct (links_spec l t1 HL1) as (_ & H & _). apply H. Qed.
Lemma t1_old c : c < n -> tri_at t1 c = tri_at ts c.
Proof using. intro L. rewrite tri_at_app. destruct (Nat.eqb_spec c n) as [Q|Q]; [subst; apply Nat.lt_irrefl in L; contradiction|auto]. Qed.
Lemma t1_new : tri_at t1 n = new. Proof. rewrite tri_at_app, Nat.eqb_refl. auto. Qed.
Lemma at_old c k : c < n -> tv ts' c k = tv ts c k.
Proof using All. intro L. rewrite at_tv. unfold tv. rewrite t1_old by auto. auto. Qed.
Lemma at_new : tv ts' n I0 = x /\ tv ts' n I1 = y /\ tv ts' n I2 = z.
Proof using All. rewrite !at_tv. unfold tv. rewrite t1_new. repeat split. Qed.
Lemma t1_nn k : tn t1 n k = None. Proof. unfold tn, NB. rewrite t1_new. destruct k; reflexivity. Qed.
Lemma t1_nc k : tc t1 n k = false. Proof. unfold tc. rewrite t1_new. destruct k; reflexivity. Qed.
Lemma t1_nd k : td t1 n k = false. Proof. unfold td. rewrite t1_new. destruct k; reflexivity. Qed.
Lemma flat_old P : In P (flat l) -> fst P <> n -> bpos ts P.
Proof.
  intros H Ne. apply in_flat_map in H as ([X Y] & H1 & H2). destruct (HO X Y H1) as [_ [[A B]|[A B]]]; simpl in H2; destruct H2 as [<-|[<-|[]]]; auto; congruence.
Qed.
Lemma at_ccw c : c < S n -> tccw zc ts' c.
Proof using All.
  intro L. destruct (Nat.eq_dec c n) as [->|Ne].
  - unfold tccw. destruct at_new as (-> & -> & ->). exact CC.
  - unfold tccw. rewrite !at_old by lia. apply (m_ccw M). lia.
Qed.
Lemma at_pair_l X Y : In (X, Y) l -> ppaired ts' X Y.
Proof using All.
  intro H. destruct (links_spec l t1 HL1) as (_ & TV & _ & H1 & _). destruct (H1 X Y H) as (B1 & B2 & _).
  destruct (HO X Y H) as [[O1 O2] _]. destruct HL as [_ F]. rewrite Forall_forall in F. specialize (F _ H). cbn [fst snd] in F.
  unfold ppaired, paired, opposed. pose proof at_len as AL. unfold TriangleStore in *. rewrite AL, !TV. repeat split; auto; apply F.
Qed.
Lemma at_pair P Q : ppaired ts' P Q <-> ppaired ts P Q \/ In (P, Q) l \/ In (Q, P) l.
Proof using All.
  split.
  2:{ intros [H|[H|H]]; [|apply at_pair_l; auto|apply paired_sym, at_pair_l; auto].
      assert (Hs := H). destruct H as (L1 & L2 & N1 & N2 & O1 & O2).
      destruct (links_spec l t1 HL1) as (_ & TV & _ & _ & H2).
      assert (NI : ~ In P (flat l)). { intro HI. apply flat_old in HI; [|lia]. destruct HI as [_ HI]. unfold ptn in HI. congruence. }
      assert (NJ : ~ In Q (flat l)). { intro HI. apply flat_old in HI; [|lia]. destruct HI as [_ HI]. unfold ptn in HI. congruence. }
      unfold ppaired, paired, opposed. pose proof at_len as AL. unfold TriangleStore in *. rewrite AL.
      destruct (H2 P NI) as (A1 & _). destruct (H2 Q NJ) as (A2 & _). unfold ptn in A1, A2. unfold TriangleStore in *. rewrite A1, A2, !at_old by auto.
      unfold tn. rewrite !t1_old by auto. repeat split; auto. }
  intro H. destruct H as (L1 & L2 & N1 & N2 & OP). pose proof at_len as AL. unfold TriangleStore in *. rewrite AL in L1, L2.
  destruct (links_spec l t1 HL1) as (_ & TV & _ & H1 & H2).
  assert (U : forall Q0, ppaired ts' P Q0 -> fst Q0 = fst Q -> Q = Q0).
  { intros Q0 (_ & _ & _ & _ & O) EQ. destruct Q as [b j], Q0 as [b0 j0]. cbn [fst snd] in *. subst b0.
    f_equal. eapply opposed_idx; [apply at_ccw; exact L1|apply at_ccw; exact L2|exact O|exact OP]. }
  destruct (in_dec pos_dec P (flat l)) as [HI|NI].
  - apply in_flat_map in HI as ([X Y] & HI & HE). cbn [fst snd] in HE. destruct HE as [EE|[EE|[]]].
    + subst X. right. left. destruct (H1 P Y HI) as (A1 & _). unfold ptn in A1. unfold TriangleStore in *. rewrite N1 in A1. injection A1 as A1.
      rewrite (U Y); auto. apply at_pair_l. auto.
    + subst Y. right. right. destruct (H1 X P HI) as (_ & A1 & _). unfold ptn in A1. unfold TriangleStore in *. rewrite N1 in A1. injection A1 as A1.
      rewrite (U X); auto. apply paired_sym. apply at_pair_l. auto.
  - left. destruct (H2 P NI) as (A1 & _). unfold ptn in A1. unfold TriangleStore in *. rewrite N1 in A1. symmetry in A1.
    assert (LP : fst P < length ts). { destruct (Nat.eq_dec (fst P) n) as [EE|]; [|lia]. rewrite EE, t1_nn in A1. discriminate. }
    unfold tn in A1. rewrite t1_old in A1 by auto. destruct (m_adj M _ _ _ LP A1) as [j PR]. assert (LQ : fst Q < length ts) by apply PR.
    assert (EJ : Q = (fst Q, j)).
    { apply U; auto. destruct PR as (_ & _ & B1 & B2 & B3 & B4).
      unfold ppaired, paired, opposed. cbn [fst snd]. unfold TriangleStore in *. rewrite AL, !at_old by auto. split; [lia|]; split; [lia|]; split; [exact N1|]. split; [|split; auto].
      assert (NJ : ~ In (fst Q, j) (flat l)). { intro HI. apply flat_old in HI; [|cbn; lia]. destruct HI as [_ HI]. unfold ptn in HI. cbn [fst snd] in HI. unfold TriangleStore in *. congruence. }
      destruct (H2 _ NJ) as (A2 & _). unfold ptn in A2. cbn [fst snd] in A2. unfold TriangleStore in *. rewrite A2. unfold tn. rewrite t1_old by auto. exact B2. }
    destruct Q as [b jq]. cbn [fst] in *. injection EJ as ->. exact PR.
Qed.
Theorem at_mesh : mesh N zc ts'.
Proof using All.
  pose proof at_len as AL. constructor.
  - intros a i La. unfold TriangleStore in *. rewrite AL in La. destruct (Nat.eq_dec a n) as [->|Ne].
    + destruct at_new as (E1 & E2 & E3). destruct i; [rewrite E1|rewrite E2|rewrite E3]; tauto.
    + rewrite at_old by lia. apply (m_range M). lia.
  - intros a La. unfold TriangleStore in *. rewrite AL in La. apply at_ccw; auto.
  - intros a i b La E. unfold TriangleStore in *. rewrite AL in La.
    destruct (links_spec l t1 HL1) as (_ & TV & _ & H1 & H2).
    destruct (in_dec pos_dec (a, i) (flat l)) as [HI|NI].
    + apply in_flat_map in HI as ([X Y] & HI & HE). cbn [fst snd] in HE. destruct HE as [EE|[EE|[]]].
      * subst X. destruct (H1 (a, i) Y HI) as (A1 & _). unfold ptn in A1. cbn [fst snd] in A1. unfold TriangleStore in *. rewrite E in A1. injection A1 as ->.
        exists (snd Y). apply (at_pair_l _ _ HI).
      * subst Y. destruct (H1 X (a, i) HI) as (_ & A1 & _). unfold ptn in A1. cbn [fst snd] in A1. unfold TriangleStore in *. rewrite E in A1. injection A1 as ->.
        exists (snd X). apply paired_sym. apply (at_pair_l _ _ HI).
    + destruct (H2 (a, i) NI) as (A1 & _). unfold ptn in A1. cbn [fst snd] in A1. unfold TriangleStore in *. rewrite E in A1. symmetry in A1.
      assert (LP : a < length ts). { destruct (Nat.eq_dec a n) as [EE|]; [|lia]. rewrite EE, t1_nn in A1. discriminate. }
      unfold tn in A1. rewrite t1_old in A1 by auto. destruct (m_adj M _ _ _ LP A1) as [j PR]. exists j.
      apply (proj2 (at_pair (a, i) (b, j))). left. exact PR.
Qed.
(** flags *)
Lemma at_tc P : fst P < n -> ptc ts' P = ptc ts P.
Proof using All.
  intro L. destruct (links_spec l t1 HL1) as (_ & TV & _ & H1 & H2).
  assert (X : ptc t1 P = ptc ts P) by (unfold ptc, tc; rewrite t1_old by auto; auto).
  destruct (in_dec pos_dec P (flat l)) as [HI|NI].
  - apply in_flat_map in HI as ([U V] & HI & HE). cbn [fst snd] in HE. destruct (H1 U V HI) as (_ & _ & A1 & A2 & _).
    destruct (HO U V HI) as [_ C]. destruct HE as [->|[->|[]]]; [rewrite A1|rewrite A2]; rewrite X.
    + destruct C as [[C _]|[_ C]]; [lia|]. unfold ptc at 2. rewrite C, t1_nc. apply orb_false_r.
    + destruct C as [[C _]|[_ C]]; [|lia]. unfold ptc at 1. rewrite C, t1_nc. reflexivity.
  - rewrite (proj1 (proj2 (H2 P NI))). exact X.
Qed.
Lemma at_td P : ptd ts' P = true -> fst P <> n /\ ~ In P (flat l) /\ ptd ts P = true.
Proof using All.
  intro H. destruct (links_spec l t1 HL1) as (_ & TV & _ & H1 & H2).
  assert (NI : ~ In P (flat l)).
  { intro HI. apply in_flat_map in HI as ([U V] & HI & HE). cbn [fst snd] in HE. destruct (H1 U V HI) as (_ & _ & _ & _ & A1 & A2).
    destruct HE as [->|[->|[]]]; congruence. }
  rewrite (proj2 (proj2 (H2 P NI))) in H. unfold ptd in H. destruct (Nat.eq_dec (fst P) n) as [EE|Ne].
  - rewrite EE, t1_nd in H. discriminate.
  - split; auto. split; auto. unfold ptd. rewrite <- H. unfold td. destruct (Nat.lt_ge_cases (fst P) n) as [L|L]; [rewrite t1_old; auto|].
    unfold tri_at. rewrite !nth_overflow; auto. rewrite t1_len. lia.
Qed.
Lemma at_inc P Q : ppaired ts P Q -> inc zc ts' P Q = inc zc ts P Q.
Proof using All. intros (L1 & L2 & _). unfold inc. rewrite !at_old by auto. reflexivity. Qed.
Lemma in_l P Q : In (P, Q) l \/ In (Q, P) l -> fst P = n \/ fst Q = n.
Proof. intros [H|H]; destruct (HO _ _ H) as [_ [[A B]|[A B]]]; auto. Qed.
Lemma in_l_flat P Q : In (P, Q) l \/ In (Q, P) l -> In P (flat l).
Proof. intros [H|H]; apply in_flat_map; eexists; split; eauto; simpl; auto. Qed.
Theorem at_dflags : dflags zc ts -> dflags zc ts'.
Proof using All.
  intros D P Q PQ T. apply at_td in T as (T1 & T2 & T3). apply at_pair in PQ as [PQ|PQ].
  - rewrite at_inc by auto. auto.
  - apply in_l_flat in PQ. contradiction.
Qed.
Theorem at_delaunay R : delaunay_but zc R ts -> delaunay_but zc (n :: R) ts'.
Proof using All.
  intros D P Q (PQ & T1 & T2 & T3). apply at_pair in PQ as [PQ|PQ].
  - rewrite at_inc in T3 by auto. rewrite !at_tc in * by apply PQ. destruct (D P Q) as [H|H]; simpl; auto. split; auto.
  - apply in_l in PQ. simpl. destruct PQ; auto.
Qed.
Theorem at_agree : flags_agree ts -> flags_agree ts'.
Proof using All.
  intros F a i b j PQ. apply (at_pair (a, i) (b, j)) in PQ as [PQ|PQ].
  - pose proof (at_tc (a, i) ltac:(apply PQ)) as X. pose proof (at_tc (b, j) ltac:(apply PQ)) as Y. unfold ptc in X, Y. cbn [fst snd] in X, Y.
    rewrite X, Y. apply F. exact PQ.
  - destruct (links_spec l t1 HL1) as (_ & TV & _ & H1 & H2). destruct PQ as [PQ|PQ]; destruct (H1 _ _ PQ) as (_ & _ & A1 & A2 & _); unfold ptc in A1, A2; cbn [fst snd] in *; congruence.
Qed.
(** the new triangle has only marks of its neighbours *)
Lemma at_marked P : fst P = n -> ptc ts' P = true -> exists Q, fst Q < n /\ ptc ts Q = true /\ ppaired ts' P Q.
Proof using All.
  intros L T. destruct (links_spec l t1 HL1) as (_ & TV & _ & H1 & H2).
  assert (XN : forall Q, fst Q = n -> ptc t1 Q = false) by (intros Q EQ; unfold ptc; rewrite EQ; apply t1_nc).
  assert (XO : forall Q, fst Q < n -> ptc t1 Q = ptc ts Q) by (intros Q EQ; unfold ptc, tc; rewrite t1_old by auto; auto).
  destruct (in_dec pos_dec P (flat l)) as [HI|NI].
  - apply in_flat_map in HI as ([U V] & HI & HE). cbn [fst snd] in HE. destruct (H1 U V HI) as (_ & _ & A1 & A2 & _). pose proof (at_pair_l U V HI) as PR.
    destruct (HO U V HI) as [_ C]. destruct HE as [->|[->|[]]].
    + destruct C as [[_ [C _]]|[[C _] _]]; [|lia]. exists V. rewrite A1, (XN P L), (XO V C) in T. split; auto.
    + destruct C as [[_ [C _]]|[[C _] _]]; [lia|]. exists U. rewrite A2, (XN P L), (XO U C), orb_false_r in T. split; auto. split; auto. apply paired_sym. exact PR.
  - exfalso. rewrite (proj1 (proj2 (H2 P NI))), (XN P L) in T. discriminate.
Qed.
(** the new boundary *)
Lemma at_bpos P : bpos ts' P <-> ~ In P (flat l) /\ (bpos ts P \/ fst P = n).
Proof using All.
  destruct (links_spec l t1 HL1) as (_ & TV & _ & H1 & H2). pose proof at_len as AL. unfold bpos. unfold TriangleStore in *. rewrite AL.
  split.
  - intros [L H]. assert (NI : ~ In P (flat l)).
    { intro HI. apply in_flat_map in HI as ([U V] & HI & HE). cbn [fst snd] in HE. destruct (H1 U V HI) as (A1 & A2 & _).
      destruct HE as [->|[->|[]]]; congruence. }
    split; auto. destruct (Nat.eq_dec (fst P) n) as [EE|Ne]; auto. left. split; [lia|]. rewrite (proj1 (H2 P NI)) in H.
    unfold ptn, tn in *. rewrite t1_old in H by lia. auto.
  - intros [NI [[L H]|EE]]; (split; [lia|]); rewrite (proj1 (H2 P NI)); unfold ptn in *.
    + unfold tn in *. rewrite t1_old by lia. auto.
    + rewrite EE. apply t1_nn.
Qed.
Lemma at_pedge P : fst P < n -> pedge ts' P = pedge ts P.
Proof using All. intro L. unfold pedge. rewrite !at_old by auto. reflexivity. Qed.
End S.

(** ** The two ways the sweep adds a triangle *)
Section Two.
Context {A : Arith} {E : Exact A}.
Variable points : Points.
Hypothesis PP : proper points.
Notation N := (npts points).
Notation zc := (zc points).
Notation bnd := (boundary (ps_head points) (ps_tail points)).
Variables (ts : TriangleStore) (ns : list Entry).
Hypothesis M : mesh N zc ts.
Hypothesis C : chain points ns.
Hypothesis B : bnd ts ns [] [].

Lemma head_first k e : nth_error ns k = Some e -> en_pid e = ps_head points -> k = 0.
Proof using C. intros H1 H2. destruct (ch_first _ _ C) as (e0 & H3 & H4). eapply ch_nodup; eauto. congruence. Qed.
Lemma pedge_at m P e e' : nth_error ns m = Some e -> nth_error ns (S m) = Some e' -> bpos ts P -> pedge ts P = (en_pid e', en_pid e) ->
  forall m2 Q d d', nth_error ns m2 = Some d -> nth_error ns (S m2) = Some d' -> bpos ts Q -> pedge ts Q = (en_pid d', en_pid d) ->
  m2 <> m -> P <> Q.
Proof using C.
  intros H1 H2 H3 H4 m2 Q d d' K1 K2 K3 K4 Ne ->. rewrite H4 in K4. injection K4 as _ K. apply Ne. symmetry. eapply ch_nodup; eauto.
Qed.
Lemma front_pos m e e' : nth_error ns m = Some e -> nth_error ns (S m) = Some e' ->
  exists P, bpos ts P /\ pedge ts P = (en_pid e', en_pid e) /\ en_tri e = Some (fst P).
Proof using B.
  intros H1 H2. destruct (bd_front _ _ _ _ _ _ B e e') as (P & HP & EP & [Q|[[]|[]]]); [exists m; auto|]. eauto.
Qed.

Section Fill.
Variables (k : nat) (ep en ex : Entry) (P1 P2 : pos).
Hypotheses (Hp : nth_error ns k = Some ep) (Hn : nth_error ns (S k) = Some en) (Hx : nth_error ns (S (S k)) = Some ex).
Hypotheses (B1 : bpos ts P1) (E1 : pedge ts P1 = (en_pid en, en_pid ep)).
Hypotheses (B2 : bpos ts P2) (E2 : pedge ts P2 = (en_pid ex, en_pid en)).
Hypothesis CC : ccw3 zc (en_pid ep) (en_pid en) (en_pid ex).
Notation n := (length ts).
Definition fill_links : list (pos * pos) := [((n, I2), P1); ((n, I0), P2)].
Definition filled : TriangleStore := links (ts ++ [tri_new (en_pid ep) (en_pid en) (en_pid ex)]) fill_links.
Definition fill_nodes : list Entry := list_remove (list_set ns k (set_tri ep (Some n))) (S k).

Lemma fill_ne : P1 <> P2.
Proof using C Hp Hn Hx B1 E1 B2 E2. eapply (pedge_at k P1 ep en Hp Hn B1 E1 (S k) P2 en ex Hn Hx B2 E2). lia. Qed.
Lemma fill_linkable : linkable (S n) fill_links.
Proof using C Hp Hn Hx B1 E1 B2 E2.
  pose proof fill_ne as Ne. destruct B1 as [L1 _], B2 as [L2 _]. split.
  - unfold flat, fill_links. cbn [flat_map fst snd app]. repeat constructor; simpl.
    + intros [H|[H|[H|[]]]]; [subst P1; simpl in *; lia|discriminate|subst P2; simpl in *; lia].
    + intros [H|[H|[]]]; [subst P1; simpl in *; lia|congruence].
    + intros [H|[]]. subst P2. simpl in *. lia.
    + tauto.
  - repeat constructor; cbn [fst snd]; lia.
Qed.
Lemma fill_opp : forall X Y, In (X, Y) fill_links ->
  opposed (ts ++ [tri_new (en_pid ep) (en_pid en) (en_pid ex)]) (fst X) (snd X) (fst Y) (snd Y) /\
  ((fst X = n /\ bpos ts Y) \/ (bpos ts X /\ fst Y = n)).
Proof using B1 E1 B2 E2.
  pose proof (proj1 B1) as L1. pose proof (proj1 B2) as L2.
  unfold fill_links. intros X Y [H|[H|[]]]; injection H as <- <-; cbn [fst snd].
  - split; [|auto]. unfold opposed, tv. rewrite t1_new, t1_old by auto. unfold pedge, tv in E1. injection E1 as E3 E4. rewrite E3, E4. split; reflexivity.
  - split; [|auto]. unfold opposed, tv. rewrite t1_new, t1_old by auto. unfold pedge, tv in E2. injection E2 as E3 E4. rewrite E3, E4. split; reflexivity.
Qed.
Lemma fill_range : en_pid ep < N /\ en_pid en < N /\ en_pid ex < N.
Proof using C Hp Hn Hx. repeat split; eapply ch_z'; eauto. Qed.
Let fl := fill_linkable.
Let fo := fill_opp.
Let fr := fill_range.
Lemma fill_mesh : mesh N zc filled. Proof. exact (at_mesh N zc ts _ _ _ fill_links M CC fr fl fo). Qed.
Lemma fill_nodes_nth m : nth_error fill_nodes m =
  if m <? S k then (if m =? k then Some (set_tri ep (Some n)) else nth_error ns m) else nth_error ns (S m).
Proof.
  unfold fill_nodes. rewrite nth_error_list_remove. rewrite !nth_error_list_set.
  rewrite (proj2 (Nat.ltb_lt _ _) (nth_error_lt _ _ _ Hp)).
  destruct (Nat.ltb_spec m (S k)).
  - destruct (Nat.eqb_spec k m), (Nat.eqb_spec m k); auto; lia.
  - destruct (Nat.eqb_spec k (S m)); auto; lia.
Qed.
Lemma fill_pedge_new : pedge filled (n, I1) = (en_pid ex, en_pid ep).
Proof. unfold pedge. cbn [fst snd nxt prv]. destruct (at_new N zc ts _ _ _ fill_links M CC fr fl fo) as (H0 & _ & H2). unfold filled. rewrite H0, H2. reflexivity. Qed.
Lemma fill_bpos P : bpos filled P <-> (bpos ts P /\ P <> P1 /\ P <> P2) \/ P = (n, I1).
Proof.
  unfold filled. rewrite (at_bpos N zc ts _ _ _ fill_links M CC fr fl fo). unfold flat, fill_links. cbn [flat_map fst snd app In].
  split.
  - intros [H1 [H2|H2]]; [left; split; auto; split; intro; apply H1; auto|]. right. destruct P as [c i]. cbn [fst] in H2. subst c. destruct i; auto; exfalso; apply H1; auto.
  - intros [(H1 & H2 & H3)| ->].
    + split; auto. destruct H1 as [L _]. intros [H|[H|[H|[H|[]]]]]; try congruence; subst P; simpl in L; lia.
    + split; auto. pose proof (proj1 B1). pose proof (proj1 B2). intros [H1|[H1|[H1|[H1|[]]]]]; try discriminate; apply (f_equal fst) in H1; cbn [fst] in H1; lia.
Qed.
Lemma fill_boundary : bnd filled fill_nodes [] [].
Proof.
  assert (PE : forall P, bpos ts P -> pedge filled P = pedge ts P) by (intros P [L _]; apply (at_pedge N zc ts _ _ _ fill_links M CC fr fl fo); auto).
  assert (LEN := nth_error_lt _ _ _ Hx).
  assert (K1 : forall m e e', nth_error ns m = Some e -> nth_error ns (S m) = Some e' -> m <> k -> m <> S k ->
    exists f f', adjacent fill_nodes f f' /\ en_pid f = en_pid e /\ en_pid f' = en_pid e').
  { intros m e e' H1 H2 Nk Nk1. destruct (Nat.lt_ge_cases m k) as [L|L].
    - destruct (Nat.eq_dec (S m) k) as [Q|Q].
      + exists e, (set_tri ep (Some n)). split; [exists m; rewrite !fill_nodes_nth|].
        * destruct (Nat.ltb_spec m (S k)); [|lia]. destruct (Nat.eqb_spec m k); [lia|]. destruct (Nat.ltb_spec (S m) (S k)); [|lia]. destruct (Nat.eqb_spec (S m) k); [auto|lia].
        * split; auto. simpl. rewrite Q, Hp in H2. congruence.
      + exists e, e'. split; auto. exists m. rewrite !fill_nodes_nth.
        destruct (Nat.ltb_spec m (S k)); [|lia]. destruct (Nat.eqb_spec m k); [lia|]. destruct (Nat.ltb_spec (S m) (S k)); [|lia]. destruct (Nat.eqb_spec (S m) k); [lia|auto].
    - exists e, e'. split; auto. exists (m - 1). rewrite !fill_nodes_nth. destruct m as [|m]; [lia|]. replace (S m - 1) with m by lia.
      destruct (Nat.ltb_spec m (S k)); [lia|]. destruct (Nat.ltb_spec (S m) (S k)); [lia|]. auto. }
  assert (K2 : forall m f f', nth_error fill_nodes m = Some f -> nth_error fill_nodes (S m) = Some f' -> m <> k ->
    exists m0 e e', nth_error ns m0 = Some e /\ nth_error ns (S m0) = Some e' /\ m0 <> k /\ m0 <> S k /\ en_pid e' = en_pid f' /\ e = f).
  { intros m f f' H1 H2 Nk. rewrite fill_nodes_nth in H1, H2. destruct (Nat.ltb_spec m (S k)).
    - destruct (Nat.eqb_spec m k); [lia|]. destruct (Nat.ltb_spec (S m) (S k)); [|lia]. exists m. destruct (Nat.eqb_spec (S m) k) as [Q|Q].
      + injection H2 as <-. exists f, ep. rewrite Q. repeat split; auto; lia.
      + exists f, f'. repeat split; auto; lia.
    - destruct (Nat.ltb_spec (S m) (S k)); [lia|]. exists (S m), f, f'. repeat split; auto; lia. }
  assert (AN : adjacent fill_nodes (set_tri ep (Some n)) ex).
  { exists k. rewrite !fill_nodes_nth. destruct (Nat.ltb_spec k (S k)); [|lia]. rewrite Nat.eqb_refl. destruct (Nat.ltb_spec (S k) (S k)); [lia|auto]. }
  constructor.
  - intros P HP. apply fill_bpos in HP as [(HP & N1 & N2)| ->].
    + rewrite PE by auto. destruct (bd_only _ _ _ _ _ _ B P HP) as [H|(e & e' & (m & H1 & H2) & H)]; auto. right.
      destruct (K1 m e e' H1 H2) as (f & f' & F1 & F2 & F3).
      * intros ->. apply N1. apply (bd_one _ _ _ _ _ _ B); auto. rewrite H, E1. f_equal; congruence.
      * intros ->. apply N2. apply (bd_one _ _ _ _ _ _ B); auto. rewrite H, E2. f_equal; congruence.
      * exists f, f'. split; auto. congruence.
    + right. exists (set_tri ep (Some n)), ex. split; [exact AN|]. rewrite fill_pedge_new. reflexivity.
  - intros f f' (m & H1 & H2). destruct (Nat.eq_dec m k) as [->|Nk].
    + destruct AN as (k' & A1 & A2). rewrite fill_nodes_nth in H1, H2. destruct (Nat.ltb_spec k (S k)); [|lia]. rewrite Nat.eqb_refl in H1. destruct (Nat.ltb_spec (S k) (S k)); [lia|].
      injection H1 as <-. exists (n, I1). split; [apply fill_bpos; auto|]. split; [|auto]. rewrite fill_pedge_new. simpl. f_equal. congruence.
    + destruct (K2 m f f' H1 H2 Nk) as (m0 & e & e' & F1 & F2 & F3 & F4 & F5 & ->).
      destruct (front_pos m0 f e' F1 F2) as (P & HP & EP & TP). exists P. split.
      * apply fill_bpos. left. split; auto. split; intro X; symmetry in X; revert X.
        -- apply (pedge_at k P1 ep en Hp Hn B1 E1 m0 P f e'); auto.
        -- apply (pedge_at (S k) P2 en ex Hn Hx B2 E2 m0 P f e'); auto.
      * rewrite PE by auto. split; [congruence|auto].
  - assert (OLDNEW : forall P, bpos ts P -> pedge ts P <> (en_pid ex, en_pid ep)).
    { intros P HP H. destruct (bd_only _ _ _ _ _ _ B P HP) as [H0|(e & e' & (m & H1 & H2) & H0)]; rewrite H0 in H; injection H as G1 G2.
      - assert (S (S k) = 0) by (eapply head_first; eauto). lia.
      - assert (S m = S (S k)) by (eapply ch_nodup; eauto). assert (m = k) by (eapply ch_nodup; eauto). lia. }
    intros P Q HP HQ EE. apply fill_bpos in HP as [(HP & _)| ->]; apply fill_bpos in HQ as [(HQ & _)| ->]; auto.
    + rewrite !PE in EE by auto. apply (bd_one _ _ _ _ _ _ B); auto.
    + rewrite PE, fill_pedge_new in EE by auto. destruct (OLDNEW P HP EE).
    + rewrite fill_pedge_new, PE in EE by auto. destruct (OLDNEW Q HQ (eq_sym EE)).
  - destruct (bd_base _ _ _ _ _ _ B) as (P & HP & EP). exists P. split; [|rewrite PE; auto]. apply fill_bpos. left. split; auto.
    split; intros ->; [rewrite E1 in EP|rewrite E2 in EP]; injection EP as G1 G2.
    + assert (S k = 0) by (eapply head_first; eauto). lia.
    + assert (S (S k) = 0) by (eapply head_first; eauto). lia.
Qed.
End Fill.

Section Insert.
Variables (k id : nat) (p : Point) (en ex : Entry) (P0 : pos).
Hypotheses (Hn : nth_error ns k = Some en) (Hx : nth_error ns (S k) = Some ex).
Hypotheses (B0 : bpos ts P0) (E0 : pedge ts P0 = (en_pid ex, en_pid en)).
Hypothesis CC : ccw3 zc id (en_pid en) (en_pid ex).
Hypothesis Lid : id < N.
Hypothesis NO : forall i e, nth_error ns i = Some e -> en_pid e <> id.
Notation n := (length ts).
Definition ins_links : list (pos * pos) := [(P0, (n, I0))].
Definition inserted : TriangleStore := links (ts ++ [tri_new id (en_pid en) (en_pid ex)]) ins_links.
Definition ins_nodes : list Entry := list_insert ns (S k) (mkEntry p id (Some n)).
Lemma ins_linkable : linkable (S n) ins_links.
Proof.
  destruct B0 as [L0 _]. split.
  - unfold flat, ins_links. cbn [flat_map fst snd app]. repeat constructor; simpl; [|tauto].
    intros [H|[]]; subst P0; simpl in *; lia.
  - repeat constructor; cbn [fst snd]; lia.
Qed.
Lemma ins_opp : forall X Y, In (X, Y) ins_links ->
  opposed (ts ++ [tri_new id (en_pid en) (en_pid ex)]) (fst X) (snd X) (fst Y) (snd Y) /\
  ((fst X = n /\ bpos ts Y) \/ (bpos ts X /\ fst Y = n)).
Proof.
  pose proof (proj1 B0) as L0.
  unfold ins_links. intros X Y [H|[]]; injection H as <- <-; cbn [fst snd].
  split; [|auto]. unfold opposed, tv. rewrite t1_new, t1_old by auto. unfold pedge, tv in E0. injection E0 as E3 E4. rewrite E3, E4. split; reflexivity.
Qed.
Lemma ins_range : id < N /\ en_pid en < N /\ en_pid ex < N.
Proof using C Hn Hx Lid. repeat split; auto; eapply ch_z'; eauto. Qed.
Let fl := ins_linkable.
Let fo := ins_opp.
Let fr := ins_range.
Lemma ins_mesh : mesh N zc inserted. Proof. exact (at_mesh N zc ts _ _ _ ins_links M CC fr fl fo). Qed.
Lemma ins_nodes_nth m : nth_error ins_nodes m = if m <? S k then nth_error ns m else if m =? S k then Some (mkEntry p id (Some n)) else nth_error ns (m - 1).
Proof. unfold ins_nodes. apply nth_error_list_insert. assert (L := nth_error_lt _ _ _ Hx). lia. Qed.
Lemma ins_pedge_1 : pedge inserted (n, I1) = (en_pid ex, id).
Proof. unfold pedge. cbn [fst snd nxt prv]. destruct (at_new N zc ts _ _ _ ins_links M CC fr fl fo) as (H0 & _ & H2). unfold inserted. rewrite H0, H2. reflexivity. Qed.
Lemma ins_pedge_2 : pedge inserted (n, I2) = (id, en_pid en).
Proof. unfold pedge. cbn [fst snd nxt prv]. destruct (at_new N zc ts _ _ _ ins_links M CC fr fl fo) as (H0 & H1 & _). unfold inserted. rewrite H0, H1. reflexivity. Qed.
Lemma ins_bpos P : bpos inserted P <-> (bpos ts P /\ P <> P0) \/ P = (n, I1) \/ P = (n, I2).
Proof.
  unfold inserted. rewrite (at_bpos N zc ts _ _ _ ins_links M CC fr fl fo). unfold flat, ins_links. cbn [flat_map fst snd app In].
  pose proof (proj1 B0) as L0. split.
  - intros [H1 [H2|H2]]; [left; split; auto; intro; apply H1; auto|]. right. destruct P as [c i]. cbn [fst] in H2. subst c. destruct i; auto; exfalso; apply H1; auto.
  - intros [(H1 & H2)|[->| ->]].
    + split; auto. destruct H1 as [L _]. intros [H|[H|[]]]; try congruence; subst P; simpl in L; lia.
    + split; auto. intros [H1|[H1|[]]]; try discriminate; apply (f_equal fst) in H1; cbn [fst] in H1; lia.
    + split; auto. intros [H1|[H1|[]]]; try discriminate; apply (f_equal fst) in H1; cbn [fst] in H1; lia.
Qed.
Lemma ins_boundary : bnd inserted ins_nodes [Some n] [].
Proof.
  assert (PE : forall P, bpos ts P -> pedge inserted P = pedge ts P) by (intros P [L _]; apply (at_pedge N zc ts _ _ _ ins_links M CC fr fl fo); auto).
  assert (LEN := nth_error_lt _ _ _ Hx). set (new := mkEntry p id (Some n)).
  assert (A1 : adjacent ins_nodes en new).
  { exists k. rewrite !ins_nodes_nth. destruct (Nat.ltb_spec k (S k)); [|lia]. destruct (Nat.ltb_spec (S k) (S k)); [lia|]. rewrite Nat.eqb_refl. auto. }
  assert (A2 : adjacent ins_nodes new ex).
  { exists (S k). rewrite !ins_nodes_nth. destruct (Nat.ltb_spec (S k) (S k)); [lia|]. rewrite Nat.eqb_refl. destruct (Nat.ltb_spec (S (S k)) (S k)); [lia|]. destruct (Nat.eqb_spec (S (S k)) (S k)); [lia|]. auto. }
  assert (OLDNEW : forall P, bpos ts P -> fst (pedge ts P) <> id /\ snd (pedge ts P) <> id).
  { intros P HP. destruct (bd_only _ _ _ _ _ _ B P HP) as [H0|(e & e' & (m & H1 & H2) & H0)]; rewrite H0; cbn [fst snd].
    - destruct (ch_first _ _ C) as (h & H1 & H2). destruct (ch_last _ _ C) as (t & H3 & H4). rewrite <- H2, <- H4. split; eapply NO; eauto.
    - split; eapply NO; eauto. }
  constructor.
  - intros P HP. apply ins_bpos in HP as [(HP & N0)|[->| ->]].
    + rewrite PE by auto. destruct (bd_only _ _ _ _ _ _ B P HP) as [H|(e & e' & (m & H1 & H2) & H)]; auto. right.
      exists e, e'. split; auto. destruct (Nat.lt_trichotomy m k) as [L|[L|L]].
      * exists m. rewrite !ins_nodes_nth. destruct (Nat.ltb_spec m (S k)); [|lia]. destruct (Nat.ltb_spec (S m) (S k)); [auto|lia].
      * subst m. exfalso. apply N0. apply (bd_one _ _ _ _ _ _ B); auto. rewrite H, E0. f_equal; congruence.
      * exists (S m). rewrite !ins_nodes_nth. destruct (Nat.ltb_spec (S m) (S k)); [lia|]. destruct (Nat.ltb_spec (S (S m)) (S k)); [lia|].
        destruct (Nat.eqb_spec (S m) (S k)); [lia|]. destruct (Nat.eqb_spec (S (S m)) (S k)); [lia|]. simpl. rewrite ?Nat.sub_0_r. auto.
    + right. exists new, ex. split; [exact A2|]. rewrite ins_pedge_1. reflexivity.
    + right. exists en, new. split; [exact A1|]. rewrite ins_pedge_2. reflexivity.
  - intros f f' (m & H1 & H2). rewrite ins_nodes_nth in H1, H2.
    assert (OLD : forall m0, nth_error ns m0 = Some f -> nth_error ns (S m0) = Some f' -> m0 <> k ->
      exists P, bpos inserted P /\ pedge inserted P = (en_pid f', en_pid f) /\ (en_tri f = Some (fst P) \/ In (Some (fst P)) [Some n] \/ In P [])).
    { intros m0 F1 F2 Nk. destruct (front_pos m0 f f' F1 F2) as (P & HP & EP & TP). exists P. split.
      * apply ins_bpos. left. split; auto. intro X; symmetry in X; revert X. apply (pedge_at k P0 en ex Hn Hx B0 E0 m0 P f f'); auto.
      * rewrite PE by auto. auto. }
    destruct (Nat.ltb_spec m (S k)) as [L|L].
    + destruct (Nat.ltb_spec (S m) (S k)) as [L2|L2]; [apply (OLD m); auto; lia|].
      destruct (Nat.eqb_spec (S m) (S k)); [|lia]. injection H2 as <-. assert (m = k) by lia. subst m. assert (f = en) by congruence. subst f.
      exists (n, I2). split; [apply ins_bpos; auto|]. split; [apply ins_pedge_2|]. right. left. simpl. auto.
    + destruct (Nat.ltb_spec (S m) (S k)) as [L2|L2]; [lia|]. destruct (Nat.eqb_spec (S m) (S k)) as [E1|E1]; [lia|]. replace (S m - 1) with m in H2 by lia.
      destruct (Nat.eqb_spec m (S k)) as [EQ|Ne]; [subst m|].
      * injection H1 as <-. assert (f' = ex) by congruence. subst f'. exists (n, I1). split; [apply ins_bpos; auto|]. split; [apply ins_pedge_1|]. left. reflexivity.
      * apply (OLD (m - 1)); auto; [replace (S (m - 1)) with m by lia; auto|lia].
  - assert (XI : en_pid ex <> id) by eauto. assert (NI : en_pid en <> id) by eauto.
    intros P Q HP HQ EE. apply ins_bpos in HP as [(HP & _)|[->| ->]]; apply ins_bpos in HQ as [(HQ & _)|[->| ->]]; auto;
      rewrite ?ins_pedge_1, ?ins_pedge_2 in EE; rewrite ?PE in EE by auto.
    + apply (bd_one _ _ _ _ _ _ B); auto.
    + destruct (OLDNEW P HP) as [G1 G2]. rewrite EE in G2. destruct (G2 eq_refl).
    + destruct (OLDNEW P HP) as [G1 G2]. rewrite EE in G1. destruct (G1 eq_refl).
    + destruct (OLDNEW Q HQ) as [G1 G2]. rewrite <- EE in G2. destruct (G2 eq_refl).
    + congruence.
    + destruct (OLDNEW Q HQ) as [G1 G2]. rewrite <- EE in G1. destruct (G1 eq_refl).
    + congruence.
  - destruct (bd_base _ _ _ _ _ _ B) as (P & HP & EP). exists P. split; [|rewrite PE; auto]. apply ins_bpos. left. split; auto.
    intros ->. rewrite E0 in EP. injection EP as G1 G2. assert (S k = 0) by (eapply head_first; eauto). lia.
Qed.
End Insert.
End Two.
