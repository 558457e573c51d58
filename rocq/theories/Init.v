(** * Init: the state in which the sweep starts, for a proper input; a decision
    procedure for [proper] *)
From Coq Require Import List Arith Bool Lia ZArith Permutation Sorted.
From Verif Require Import Base Num Shape ShapeSpec Utils Points Triangles Front Sweeper Cdt F64 Lists BuilderSpec History SortSpec
  Exact F64Exact PropsBuilder PropsTrace Setup.
Import ListNotations.

Section S.
Context {A : Arith} {E : Exact A}.
Variables (pts : list Point) (es : list PointEdges).
Let ps := points_new pts es.
Hypothesis PP : proper ps.
Hypothesis W : length es = length pts.

(** the initial mesh and front *)
Definition start_state (lowest : nat) (plow : Point) : Sweeper :=
  mkSw [tri_new lowest (length pts) (S (length pts))] (mkFront (frame_entries pts lowest plow) None) [] [].

(** finp of all points gives finp of the input points *)
Lemma proper_fin : Forall finp pts.
Proof using PP. pose proof (pr_fin ps PP) as F. unfold ps in F. simpl in F. apply Forall_app in F. apply F. Qed.
Lemma nth_head : nth_error (ps_points ps) (length pts) = Some (head_point pts).
Proof using. clear W. change (ps_points ps) with (pts ++ [head_point pts; tail_point pts]). rewrite nth_error_app2, Nat.sub_diag by lia. reflexivity. Qed.
Lemma nth_tail : nth_error (ps_points ps) (S (length pts)) = Some (tail_point pts).
Proof using. clear W. change (ps_points ps) with (pts ++ [head_point pts; tail_point pts]). rewrite nth_error_app2 by lia. replace (S (length pts) - length pts) with 1 by lia. reflexivity. Qed.
Lemma nth_pts i : i < length pts -> nth_error (ps_points ps) i = nth_error pts i.
Proof using. clear W. intro L. change (ps_points ps) with (pts ++ [head_point pts; tail_point pts]). apply nth_error_app1. auto. Qed.

Theorem start_ok : pts <> [] -> exists lowest order plow l,
  ps_y_sorted ps = lowest :: order /\ Permutation (lowest :: order) (seq 0 (length pts)) /\
  StronglySorted (id_yle pts) (lowest :: order) /\
  nth_error pts lowest = Some plow /\
  run_init ps = Done (start_state lowest plow) /\
  iter_point_by_y ps 1 = Done l /\ map (fun y => fst (fst y)) l = order /\
  (forall y, In y l -> nth_error pts (fst (fst y)) = Some (snd (fst y)) /\ nth_error es (fst (fst y)) = Some (snd y)).
Proof using PP W.
  intro NE. destruct (iter_point_ok pts es W) as (l & El & Fl). fold ps in El, Fl.
  pose proof (y_sorted_perm pts es) as P. fold ps in P. pose proof (y_sorted_sorted pts es proper_fin) as SS. fold ps in SS.
  destruct (ps_y_sorted ps) as [|lowest order] eqn:Y.
  { apply Permutation_length in P. rewrite seq_length in P. destruct pts; [congruence|discriminate]. }
  assert (Lw : lowest < length pts).
  { assert (In lowest (seq 0 (length pts))) as Q by (apply (Permutation_in _ P); left; auto). apply in_seq in Q. lia. }
  destruct (nth_error_ex pts lowest Lw) as [plow Hp].
  exists lowest, order, plow, l. split; auto. split; auto. split; auto. split; auto. split.
  { unfold run_init, get_id_by_y. rewrite Y. cbn [nth_error unwrap rbind ts_insert app length].
    unfold ts_get, get_unchecked. cbn [nth_error unwrap rbind].
    unfold front_new, get_point. cbn [t_points tri_new a0 a1 a2].
    change (ps_head ps) with (length pts). change (ps_tail ps) with (S (length pts)).
    rewrite nth_head, nth_tail, nth_pts by auto. rewrite Hp. cbn [unwrap rbind].
    pose proof (pr_fin ps PP) as F. unfold ps in F. simpl in F. rewrite Forall_forall in F.
    assert (Fh : finp (head_point pts)) by (apply F; rewrite in_app_iff; simpl; auto).
    assert (Ft : finp (tail_point pts)) by (apply F; rewrite in_app_iff; simpl; auto).
    assert (Fp : finp plow) by (apply F; rewrite in_app_iff; left; eapply nth_error_In; eauto).
    assert (Zh : zc ps (length pts) = zp (head_point pts)) by (unfold zc; rewrite nth_head; auto).
    assert (Zt : zc ps (S (length pts)) = zp (tail_point pts)) by (unfold zc; rewrite nth_tail; auto).
    assert (Zl : zc ps lowest = zp plow) by (unfold zc; rewrite nth_pts, Hp by auto; auto).
    pose proof (pr_frame ps PP lowest Lw) as [[F1 F2] _]. change (ps_head ps) with (length pts) in *. change (ps_tail ps) with (S (length pts)) in *.
    rewrite Zh, Zl in F1. rewrite Zt, Zl in F2.
    unfold start_state, frame_entries. simpl.
    assert (C : forall a b, finp a -> finp b -> (fst (zp a) < fst (zp b))%Z -> key_cmp a b = Lt).
    { intros a b Fa Fb Lab. rewrite key_cmp_exact by auto. destruct (zcmp_spec (zp a) (zp b)) as [Q|Q|Q]; auto.
      - rewrite Q in Lab. lia.
      - destruct Q as [Q|[Q _]]; lia. }
    rewrite (C _ _ Fh Fp) by auto. simpl. rewrite (C _ _ Fh Ft) by lia. simpl. rewrite (C _ _ Fp Ft) by auto. reflexivity. }
  split; auto. cbn [tl] in Fl. clear - Fl. split.
  - induction Fl as [|id y o l (H1 & H2 & H3) Fl IH]; simpl; auto. congruence.
  - induction Fl as [|id y o l (H1 & H2 & H3) Fl IH]; intros z Hz; [destruct Hz|]. destruct Hz as [<-|Hz]; auto. rewrite H1. auto.
Qed.
End S.

(** ** [proper] can be decided by computation (f64) *)
Definition properb (ps : @Points F64) : bool :=
  forallb (fun p : @Point F64 => finb64 (px p) && finb64 (py p)) (ps_points ps) &&
  (let n := length (ps_points ps) in
   forallb (fun i => forallb (fun j => (i =? j) || negb ((fst (zc ps i) =? fst (zc ps j))%Z && (snd (zc ps i) =? snd (zc ps j))%Z)) (seq 0 n)) (seq 0 n) &&
   (ps_head ps + 2 =? n) && (ps_tail ps + 1 =? n) &&
   forallb (fun i => (fst (zc ps (ps_head ps)) <? fst (zc ps i))%Z && (fst (zc ps i) <? fst (zc ps (ps_tail ps)))%Z &&
                     (snd (zc ps (ps_head ps)) <? snd (zc ps i))%Z && (snd (zc ps (ps_tail ps)) <? snd (zc ps i))%Z) (seq 0 (ps_head ps)) &&
   (fst (zc ps (ps_head ps)) <? fst (zc ps (ps_tail ps)))%Z).
Lemma properb_ok ps : properb ps = true -> proper ps.
Proof.
  unfold properb. cbv zeta. rewrite !andb_true_iff. intros (H1 & ((((H2 & H3) & H4) & H5) & H6)).
  rewrite forallb_forall in H1, H2, H5. constructor.
  - apply Forall_forall. intros p Hp. apply finp64_dec. auto.
  - intros i j Li Lj Q. unfold npts in *. specialize (H2 i). rewrite in_seq, forallb_forall in H2. specialize (H2 ltac:(lia) j).
    rewrite in_seq in H2. specialize (H2 ltac:(lia)). apply orb_true_iff in H2 as [H2|H2]; [apply Nat.eqb_eq; auto|].
    rewrite Q in H2. rewrite !Z.eqb_refl in H2. discriminate.
  - apply Nat.eqb_eq. exact H3.
  - apply Nat.eqb_eq. exact H4.
  - intros i Li. specialize (H5 i). rewrite in_seq in H5. specialize (H5 ltac:(lia)). rewrite !andb_true_iff, !Z.ltb_lt in H5. lia.
  - apply Z.ltb_lt. exact H6.
Qed.
