(** * PropsIntEx: concrete inputs that meet the hypotheses of PropsInt.v

    A convex polygon with nine corners, a star with eight corners (four of them reflex), and a triangle with a
    triangular hole and a Steiner point. *)
From Coq Require Import List Arith Bool Lia ZArith.
From Verif Require Import Base Num Shape Utils Points Cdt F64 Exact Spec History BuilderSpec Geom Region Winding CoverRun PropsMesh PropsCover PropsMarks PropsRegion PropsCup PropsTri IntSpec IntRun IntHyp PropsInt.
From Verif Require Import PropsTotal.
Import ListNotations.
Local Open Scope nat_scope.

(** ** the checkers are sound *)
Fixpoint cfree_mid (a : zpt) (m : list zpt) : bool := match m with [] => true | b :: m' => forallb (fun c => negb (orient a b c =? 0)%Z) m' && cfree_mid a m' end.
Fixpoint collinear_freeb (l : list zpt) : bool := match l with [] => true | a :: m => cfree_mid a m && collinear_freeb m end.
Definition integer_inputb (zs : list zpt) : bool :=
  (3 <=? length zs) && forallb (fun z => (Z.abs (fst z) <=? 65536)%Z && (Z.abs (snd z) <=? 65536)%Z) zs && collinear_freeb (tenths zs).
Lemma cfree_mid_ok a m : cfree_mid a m = true -> forall j k, j < k -> k < length m -> orient a (nth j m (0, 0)%Z) (nth k m (0, 0)%Z) <> 0%Z.
Proof.
  induction m as [|b m IH]; intros H j k L1 L2; [cbn in L2; lia|]. cbn in H. apply andb_true_iff in H as [H1 H2]. rewrite forallb_forall in H1.
  destruct k as [|k]; [lia|]. destruct j as [|j]; cbn [nth].
  - specialize (H1 (nth k m (0, 0)%Z) ltac:(apply nth_In; cbn in L2; lia)). apply negb_true_iff, Z.eqb_neq in H1. exact H1.
  - apply IH; auto; cbn in L2; lia.
Qed.
Lemma collinear_freeb_ok l : collinear_freeb l = true -> no_three_collinear l.
Proof.
  induction l as [|a l IH]; intros H i j k L1 L2 L3; [cbn in L3; lia|]. cbn in H. apply andb_true_iff in H as [H1 H2].
  destruct j as [|j]; [lia|]. destruct k as [|k]; [lia|]. cbn in L3. destruct i as [|i]; cbn [nth].
  - apply (cfree_mid_ok _ _ H1); lia.
  - apply (IH H2); lia.
Qed.
Lemma integer_inputb_ok zs : integer_inputb zs = true -> integer_input zs.
Proof.
  unfold integer_inputb. rewrite !andb_true_iff. intros [[H1 H2] H3]. apply Nat.leb_le in H1. split; [exact H1|]. split; [|apply collinear_freeb_ok; exact H3].
  apply Forall_forall. intros z Iz. rewrite forallb_forall in H2. specialize (H2 z Iz). apply andb_true_iff in H2 as [A1 A2]. apply Z.leb_le in A1, A2. auto.
Qed.
Definition edges_apartb (zs : list zpt) (es : list (nat * nat)) : bool := forallb (fun e => forallb (fun e' =>
  negb ((orient (zat zs (fst e)) (zat zs (snd e)) (zat zs (fst e')) * orient (zat zs (fst e)) (zat zs (snd e)) (zat zs (snd e')) <? 0)%Z &&
        (orient (zat zs (fst e')) (zat zs (snd e')) (zat zs (fst e)) * orient (zat zs (fst e')) (zat zs (snd e')) (zat zs (snd e)) <? 0)%Z)) es) es.
Lemma edges_apartb_ok zs es : edges_apartb zs es = true -> edges_apart zs es.
Proof.
  unfold edges_apartb. rewrite forallb_forall. intros H e e' I' I'' [A1 A2]. specialize (H e I'). rewrite forallb_forall in H. specialize (H e' I'').
  apply Z.ltb_lt in A1, A2. rewrite A1, A2 in H. discriminate.
Qed.
Definition cappedb (zs : list zpt) (p q : nat) : bool := let n := length zs in let P := zat zs p in let Q := zat zs q in
  ((snd P <? snd Q) || (snd P =? snd Q) && (fst P <? fst Q))%Z && (fst Q <? fst P)%Z && existsb (fun u => existsb (fun v => existsb (fun w => let U := zat zs u in let V := zat zs v in let W := zat zs w in
    (fst Q <=? fst U)%Z && (fst U <? fst V)%Z && (fst V <? fst W)%Z && (fst W <? fst P)%Z && (orient Q U P <=? 0)%Z && (0 <? orient Q V P)%Z && (0 <? orient Q W P)%Z && (orient U V W <=? 0)%Z)
    (seq 0 n)) (seq 0 n)) (seq 0 n).
Lemma cappedb_ok zs p q : cappedb zs p q = false -> ~ capped zs p q.
Proof.
  intros H (Y & X & u & v & w & Lu & Lv & Lw & H1 & H2 & H3 & H4 & H5 & H6 & H7 & H8). apply Bool.not_true_iff_false in H. apply H. unfold cappedb.
  apply andb_true_iff. split; [apply andb_true_iff; split; [unfold ylt in Y; rewrite orb_true_iff, andb_true_iff, Z.eqb_eq, !Z.ltb_lt; exact Y|apply Z.ltb_lt; exact X]|]. apply existsb_exists. exists u. split; [apply in_seq; lia|]. apply existsb_exists. exists v. split; [apply in_seq; lia|].
  apply existsb_exists. exists w. split; [apply in_seq; lia|]. cbv zeta. rewrite !andb_true_iff, !Z.leb_le, !Z.ltb_lt. tauto.
Qed.
Definition uncappedb (zs : list zpt) (es : list (nat * nat)) : bool := forallb (fun e => negb (cappedb zs (fst e) (snd e)) && negb (cappedb zs (snd e) (fst e))) es.
Lemma uncappedb_ok zs es : uncappedb zs es = true -> forall p q, In (p, q) es \/ In (q, p) es -> ~ capped zs p q.
Proof.
  unfold uncappedb. rewrite forallb_forall. intros H p q [I'|I']; specialize (H _ I'); apply andb_true_iff in H as [H1 H2]; apply negb_true_iff in H1, H2; apply cappedb_ok; assumption.
Qed.
Definition convex_polygonb (zs : list zpt) : bool := let n := length zs in forallb (fun i => forallb (fun j => forallb (fun k =>
  negb (i <? j) || negb (j <? k) || (0 <? orient (zat zs i) (zat zs j) (zat zs k))%Z) (seq 0 n)) (seq 0 n)) (seq 0 n).
Lemma convex_polygonb_ok zs : convex_polygonb zs = true -> convex_polygon zs.
Proof.
  unfold convex_polygonb. rewrite forallb_forall. intros H i j k L1 L2 L3. specialize (H i ltac:(apply in_seq; lia)). rewrite forallb_forall in H.
  specialize (H j ltac:(apply in_seq; lia)). rewrite forallb_forall in H. specialize (H k ltac:(apply in_seq; lia)).
  apply Nat.ltb_lt in L1, L2. rewrite L1, L2 in H. apply Z.ltb_lt. exact H.
Qed.

(** ** the inputs *)
Definition nonagon : list zpt := [(0,10);(3,3);(9,0);(19,2);(25,9);(24,15);(17,22);(10,21);(3,16)]%Z.
Example nonagon_ok : integer_input nonagon /\ convex_polygon nonagon.
Proof. split; [apply integer_inputb_ok|apply convex_polygonb_ok]; vm_compute; reflexivity. Qed.
Example nonagon_triangulated : exists ids, (forall fuel, steps 9 <= fuel -> indices64 true fuel nonagon [] [] = Done ids) /\ fills_region 9 (zat nonagon) (seq 0 9) [] ids.
Proof. destruct nonagon_ok as [H1 H2]. destruct (C28_convex_polygon_triangulated nonagon H1 H2 true) as (ids & A1 & A2). exists ids. split; [exact A1|exact A2]. Qed.

Definition star : list zpt := [(0,0);(31,6);(60,1);(47,29);(63,59);(33,44);(2,61);(14,30)]%Z.
Example star_ok : integer_input star /\ edges_apart star (ring 8) /\ (forall p q, In (p, q) (ring 8) \/ In (q, p) (ring 8) -> ~ capped star p q) /\ ~ convex_points star.
Proof.
  split; [apply integer_inputb_ok; vm_compute; reflexivity|]. split; [apply edges_apartb_ok; vm_compute; reflexivity|]. split; [apply uncappedb_ok; vm_compute; reflexivity|].
  intro C. apply (C 0 2 4 1); [cbn; lia| cbn; lia| cbn; lia| cbn; lia|]. vm_compute. auto.
Qed.
Example star_triangulated : exists ids, (forall fuel, steps 8 <= fuel -> indices64 true fuel star [] [] = Done ids) /\ fills_region 8 (zat star) (seq 0 8) [] ids.
Proof. destruct star_ok as (H1 & H2 & H3 & _). destruct (C28_integer_polygon_triangulated_partial star H1 H2 H3 true) as (ids & A1 & A2). exists ids. split; [exact A1|exact A2]. Qed.

Definition annulus : list zpt := [(3,1);(61,5);(32,58);(25,14);(38,17);(30,29);(29,36)]%Z.
Example annulus_ok : history_points unit hole_src hole_calls = map pt64 annulus /\ integer_input annulus /\
  let es := history_edges unit hole_src hole_calls in
  edges_apart annulus es /\ (forall p q, In (p, q) es \/ In (q, p) es -> ~ capped annulus p q) /\
  (forall c, In c (outer_contour unit hole_src :: hole_contours unit hole_src hole_calls) -> 3 <= length c) /\
  holes_inside annulus (outer_contour unit hole_src) (hole_contours unit hole_src hole_calls) /\
  loose_points_allowed annulus (outer_contour unit hole_src) (hole_contours unit hole_src hole_calls).
Proof.
  split; [reflexivity|]. split; [apply integer_inputb_ok; vm_compute; reflexivity|]. cbv zeta. change (history_edges unit hole_src hole_calls) with [(0,1);(1,2);(2,0);(3,4);(4,5);(5,3)].
  change (outer_contour unit hole_src) with [0;1;2]. change (hole_contours unit hole_src hole_calls) with [[3;4;5]].
  split; [apply edges_apartb_ok; vm_compute; reflexivity|]. split; [apply uncappedb_ok; vm_compute; reflexivity|]. split; [intros c [<-|[<-|[]]]; cbn; lia|]. split.
  - intros k p h Pk [<-|[]] W. split; [|intros h' [<-|[]] Q; congruence].
    change (wind (fun v => scaled k (zat annulus v)) [3;4;5] p <> 0%Z) in W.
    assert (T1 : (0 < orient (zat annulus 0) (zat annulus 1) (zat annulus 2))%Z) by (vm_compute; reflexivity).
    assert (T2 : (0 < orient (zat annulus 3) (zat annulus 4) (zat annulus 5))%Z) by (vm_compute; reflexivity).
    assert (WW : forall x y z, wind (fun v => scaled k (zat annulus v)) [x;y;z] p = wn3 (scaled k (zat annulus x)) (scaled k (zat annulus y)) (scaled k (zat annulus z)) p).
    { intros. unfold wind, Stokes.cyc, wn3. cbn [combine tl app map fst snd]. unfold zsuml. cbn [fold_right length]. cbn. lia. }
    rewrite WW in *. revert W. apply triangle_in_triangle; auto; vm_compute; auto.
  - intros v Lv Nv. assert (v = 6) as ->; [|left; vm_compute; discriminate]. pose proof (Nv _ (or_introl eq_refl)) as Q1. pose proof (Nv _ (or_intror (or_introl eq_refl))) as Q2. cbn in Q1, Q2, Lv. lia.
Qed.
Example annulus_triangulated : exists b, builder_of unit hole_src hole_calls = Done b /\ forall dbg, exists t ids,
  (forall fuel, steps 7 <= fuel -> triangulate dbg unit fuel (build unit b) = Done t) /\ triangle_list_indices dbg unit t = Done ids /\
  fills_region 7 (zat annulus) [0;1;2] [[3;4;5]] ids.
Proof. destruct annulus_ok as (H1 & H2 & H3 & H4 & H5 & H6 & H7). exact (C28_integer_inputs_triangulated_partial unit hole_src hole_calls 0%Z annulus unit_0 H1 H2 H3 H4 H5 H6 H7). Qed.
