(** * MeshStart: builders produce no self edge; the initial mesh; what holds at
    every callback of a run *)
From Coq Require Import List Arith Bool Lia ZArith Permutation Sorted.
From Verif Require Import Base Num Shape ShapeSpec Utils Points Triangles Front Sweeper Cdt F64 Lists BuilderSpec History SortSpec Monad Traverse TraceSpec Grow Exact
  PropsBuilder PropsTrace FrontSpec Geom Mesh Rotate Setup Legal Legalize Boundary Chain Remap Attach FrontInv Disc Good Marks Flips Fills Init PropsFront MeshRun.
Import ListNotations.

Section NoSelf.
Context {A : Arith} {E : Exact A}.
(** every edge is stored at its upper endpoint *)
Definition below (pts : list Point) (p q : nat) : Prop := exists a b, nth_error pts p = Some a /\ nth_error pts q = Some b /\ ylt (zp a) (zp b).
Definition NS (pts : list Point) (es : list PointEdges) : Prop := forall q e p, nth_error es q = Some e -> In p (edges_list e) -> below pts p q.
Lemma below_app pts l p q : below pts p q -> below (pts ++ l) p q.
Proof using.
  intros (a & b & H1 & H2 & H3). exists a, b. pose proof (nth_error_lt _ _ _ H1). pose proof (nth_error_lt _ _ _ H2). rewrite !nth_error_app1 by auto. auto.
Qed.
Lemma edge_new_below pts i a j b ed : finp a -> finp b -> nth_error pts i = Some a -> nth_error pts j = Some b -> edge_new i a j b = Done ed -> below pts (e_p ed) (e_q ed).
Proof using E.
  intros [F1 F2] [F3 F4] Hi Hj. unfold edge_new. rewrite !x_lt, !x_eq by auto.
  destruct (Z.ltb_spec (zv (py b)) (zv (py a))); [intro Q; injection Q as <-; exists b, a; split; [auto|split; [auto|left; exact H]]|].
  destruct (Z.eqb_spec (zv (py a)) (zv (py b))).
  - destruct (Z.ltb_spec (zv (px b)) (zv (px a))); [intro Q; injection Q as <-; exists b, a; split; [auto|split; [auto|right; unfold zp; simpl; lia]]|].
    destruct (Z.eqb_spec (zv (px a)) (zv (px b))); [discriminate|]. intro Q; injection Q as <-; exists a, b. split; [auto|split; [auto|right; unfold zp; simpl; lia]].
  - intro Q; injection Q as <-; exists a, b. split; [auto|split; [auto|left; unfold zp; simpl; lia]].
Qed.
Lemma push_NS pts b q p b' : pb_push_edge b q p = Done b' -> below pts p q -> NS pts (pb_edges b) -> NS pts (pb_edges b').
Proof using.
  unfold pb_push_edge. destruct (nth_error (pb_edges b) q) as [e0|] eqn:Q; simpl; [|discriminate].
  destruct (edges_push e0 p) as [e1| | |] eqn:P; simpl; try discriminate. intros H Ne B. injection H as <-. intros q' e p' He. cbn [pb_edges] in He.
  rewrite nth_error_list_set in He. destruct (Nat.eqb_spec q q') as [<-|].
  - rewrite (proj2 (Nat.ltb_lt _ _) (nth_error_lt _ _ _ Q)) in He. injection He as <-. pose proof (fun p' => B q e0 p' Q) as B'.
    destruct e0; simpl in P; inversion P; subst; unfold edges_list in *; simpl in *; intros [H|H]; subst; auto; destruct H as [H|H]; subst; auto.
  - apply (B q' e p' He).
Qed.
Definition at_pts (b : PointsBuilder) (x : pid * Point) : Prop := nth_error (pb_points b) (fst x) = Some (snd x).
Lemma between_NS b x y b' : push_edge_between b x y = Done b' -> at_pts b x -> at_pts b y -> Forall finp (pb_points b) ->
  NS (pb_points b) (pb_edges b) -> NS (pb_points b) (pb_edges b') /\ pb_points b' = pb_points b.
Proof using E.
  unfold push_edge_between. destruct (edge_new _ _ _ _) as [ed| | |] eqn:Q; simpl; try discriminate. intros H X Y F B. split.
  - eapply push_NS; eauto. unfold at_pts in *. rewrite Forall_forall in F. eapply edge_new_below; [| | | |exact Q]; eauto; apply F; eapply nth_error_In; eauto.
  - unfold pb_push_edge in H. destruct (nth_error (pb_edges b) (e_q ed)); simpl in H; [|discriminate].
    destruct (edges_push _ _); simpl in H; try discriminate. injection H as <-. reflexivity.
Qed.
Lemma polyline_NS l : forall b f la b', polyline_edges b f la l = Done b' -> at_pts b f -> at_pts b la -> Forall (at_pts b) l ->
  Forall finp (pb_points b) -> NS (pb_points b) (pb_edges b) -> NS (pb_points b) (pb_edges b').
Proof using E.
  induction l as [|p l IH]; simpl; intros b f la b' H F L Fl Fn B; [eapply between_NS; eauto|]. inversion Fl; subst.
  destruct (push_edge_between b la p) as [b1| | |] eqn:Q; simpl in H; try discriminate.
  destruct (between_NS b la p b1) as [B1 P1]; auto. unfold at_pts in *. rewrite <- P1. eapply IH; eauto; unfold at_pts; rewrite P1; auto.
Qed.
Lemma NS_app pts es l n : NS pts es -> NS (pts ++ l) (es ++ repeat ENone n).
Proof using.
  intros H q e p He. destruct (Nat.lt_ge_cases q (length es)) as [L|L].
  - rewrite nth_error_app1 in He by auto. intro. apply below_app. eauto.
  - rewrite nth_error_app2 in He by auto. apply nth_error_In, repeat_spec in He. subst. simpl. tauto.
Qed.
Lemma parse_NS l b b' : wf_pb b -> parse_polyline l b = Done b' -> Forall finp (pb_points b') -> NS (pb_points b) (pb_edges b) -> NS (pb_points b') (pb_edges b').
Proof using E.
  intros W H F B. destruct (parse_polyline_points l b b' W H) as [Q _]. rewrite Q in F |- *.
  unfold parse_polyline in H. pose proof (add_all_spec b l W) as S. destruct (add_all b l) as [ids b1].
  destruct S as (E1 & E2 & E3).
  assert (B1 : NS (pb_points b1) (pb_edges b1)) by (rewrite E1, E2; apply NS_app; auto).
  assert (I1 : Forall (at_pts b1) ids).
  { subst ids. apply Forall_forall. intros [i p] I. unfold at_pts. rewrite E1. simpl. apply in_combine_seq in I as [H1 H2].
    rewrite nth_error_app2 by auto. auto. }
  rewrite <- E1. destruct ids as [|f r]; [injection H as <-; auto|]. inversion I1; subst. eapply polyline_NS; eauto. rewrite E1. auto.
Qed.
Variable PD : Type.
Definition BN (b : Builder PD) : Prop := bd_wf PD b /\ (Forall finp (pb_points (bd_points b)) -> NS (pb_points (bd_points b)) (pb_edges (bd_points b))).
Lemma hole_BN b s b' : BN b -> add_hole PD b s = Done b' -> BN b'.
Proof using E.
  intros [W B] H. destruct (add_hole_points PD b s b' W H) as (P & _ & W'). split; auto.
  unfold add_hole in H. destruct (parse_polyline (fst s) (bd_points b)) as [pb| | |] eqn:Q; try discriminate. injection H as <-. simpl in *.
  intro F. apply (parse_NS _ _ _ W Q F). apply B. rewrite P in F. apply Forall_app in F. apply F.
Qed.
Lemma holes_BN l : forall b b', BN b -> add_holes PD b l = Done b' -> BN b'.
Proof using E.
  induction l as [|s l IH]; simpl; intros b b' H Q; [injection Q as <-; auto|].
  destruct (add_hole PD b s) eqn:Q'; try discriminate. eapply IH; [eapply hole_BN; eauto|exact Q].
Qed.
Lemma call_BN c b b' : BN b -> apply_call PD b c = Done b' -> BN b'.
Proof using E.
  intros W Q. destruct c; simpl in Q.
  - eapply hole_BN; eauto.
  - eapply holes_BN; eauto.
  - destruct W as [W B]. destruct (apply_call_points PD (CSteiner _ p d) b b' W Q) as (P & _ & W'). split; auto.
    intro F. rewrite P in F. apply Forall_app in F as [F _]. injection Q as <-. simpl.
    apply (NS_app _ _ [p] 1). auto.
  - destruct W as [W B]. destruct (apply_call_points PD (CSteiners _ s) b b' W Q) as (P & _ & W'). split; auto.
    intro F. rewrite P in F. apply Forall_app in F as [F _]. injection Q as <-. cbn [add_steiner_points bd_points].
    destruct (steiners_wf (bd_points b) (fst s) W) as (H1 & H2 & _). rewrite H1, H2. apply NS_app. auto.
Qed.
Lemma calls_BN l : forall b b', BN b -> apply_calls PD b l = Done b' -> BN b'.
Proof using E.
  induction l as [|s l IH]; simpl; intros b b' H Q; [injection Q as <-; auto|].
  destruct (apply_call PD b s) eqn:Q'; try discriminate. eapply IH; [eapply call_BN; eauto|exact Q].
Qed.
Lemma builder_BN src calls b : builder_of PD src calls = Done b -> BN b.
Proof using E.
  unfold builder_of, builder_new. destruct (parse_polyline (fst src) pb_new) as [pb| | |] eqn:Q; try discriminate. simpl.
  apply calls_BN. assert (W := pb_new_wf). destruct (parse_polyline_points _ _ _ W Q) as [_ W']. split; auto.
  intro F. cbn [bd_points] in *. apply (parse_NS _ _ _ W Q F). intros q e p He. destruct q; discriminate.
Qed.
End NoSelf.

Section S.
Context {A : Arith} {E : Exact A}.

Lemma StronglySorted_impl {X} (R R' : X -> X -> Prop) l : (forall x y, In x l -> In y l -> R x y -> R' x y) -> StronglySorted R l -> StronglySorted R' l.
Proof.
  induction l as [|x l IH]; intros H S; [constructor|]. inversion S as [|? ? S1 S2]; subst. constructor.
  - apply IH; auto. intros; apply H; auto; right; auto.
  - rewrite Forall_forall in *. intros y Hy. apply H; auto; [left|right]; auto.
Qed.
(** transport along a map that reflects the relation *)
Lemma StronglySorted_unmap {X Y} (f : X -> Y) (R : Y -> Y -> Prop) l : StronglySorted R (map f l) -> StronglySorted (fun x y => R (f x) (f y)) l.
Proof.
  induction l as [|x l IH]; simpl; intro S; [constructor|]. inversion S as [|? ? S1 S2]; subst. constructor; auto.
  rewrite Forall_forall in *. intros y Hy. apply S2. apply in_map. auto.
Qed.

(** the initial mesh *)
Section Start.
Variables (pts : list Point) (es : list PointEdges) (lowest : nat) (plow : Point).
Let ps := points_new pts es.
Hypothesis PP : proper ps.
Hypothesis Hp : nth_error pts lowest = Some plow.

Lemma start_chain : chain ps (frame_entries pts lowest plow).
Proof using PP Hp.
  assert (Lw : lowest < length pts) by (apply nth_error_lt in Hp; auto).
  pose proof (pr_fin ps PP) as F. unfold ps in F. simpl in F. rewrite Forall_forall in F.
  assert (Zh : zc ps (length pts) = zp (head_point pts)) by (unfold zc, ps; rewrite nth_head; auto).
  assert (Zt : zc ps (S (length pts)) = zp (tail_point pts)) by (unfold zc, ps; rewrite nth_tail; auto).
  assert (Zl : zc ps lowest = zp plow) by (unfold zc, ps; rewrite nth_pts, Hp by auto; auto).
  pose proof (pr_frame ps PP lowest Lw) as [[F1 F2] _].
  change (ps_head ps) with (length pts) in *. change (ps_tail ps) with (S (length pts)) in *.
  rewrite Zh, Zl in F1. rewrite Zt, Zl in F2.
  constructor.
  - split.
    + repeat constructor; try (apply F; rewrite in_app_iff; simpl; auto; fail).
      all: apply F; rewrite in_app_iff; left; eapply nth_error_In; eauto.
    + intros i j a c Lij Ha Hc. destruct i as [|[|[|i]]]; destruct j as [|[|[|j]]]; try lia; simpl in Ha, Hc;
        try (destruct j; discriminate); try (destruct i; discriminate); injection Ha as <-; injection Hc as <-; simpl; left; simpl in *; lia.
  - intros e He. simpl in He. destruct He as [<-|[<-|[<-|[]]]]; simpl en_pid; simpl en_key.
    + apply nth_head. + unfold ps. rewrite nth_pts; auto. + apply nth_tail.
  - eexists; split; [reflexivity|]. reflexivity.
  - eexists; split; [reflexivity|]. reflexivity.
  - intros i e Li He. destruct i as [|[|i]]; simpl in He, Li; [injection He as <-; discriminate|injection He as <-; discriminate|lia].
Qed.

Notation ts0 := [tri_new lowest (length pts) (S (length pts))].
Lemma start_tn a i : tn ts0 a i = None.
Proof using. unfold tn, tri_at. destruct a as [|[|a]]; destruct i; reflexivity. Qed.
Lemma start_bnd : boundary (ps_head ps) (ps_tail ps) ts0 (frame_entries pts lowest plow) [] [].
Proof using Hp.
  change (ps_head ps) with (length pts). change (ps_tail ps) with (S (length pts)).
  assert (BP : forall i, bpos ts0 (0, i)) by (intro i; split; [simpl; lia|apply start_tn]).
  constructor.
  - intros [a i] [La _]. simpl in La. assert (a = 0) as -> by lia. destruct i; [left; reflexivity|right; do 2 eexists|right; do 2 eexists].
    + split; [exists 1; split; reflexivity|reflexivity].
    + split; [exists 0; split; reflexivity|reflexivity].
  - intros e e' (k & H1 & H2). destruct k as [|[|[|k]]]; simpl in H1, H2; try discriminate.
    + injection H1 as <-. injection H2 as <-. exists (0, I2). split; [apply BP|]. split; [reflexivity|left; reflexivity].
    + injection H1 as <-. injection H2 as <-. exists (0, I1). split; [apply BP|]. split; [reflexivity|left; reflexivity].
  - assert (NB : length pts <> S (length pts)) by lia.
    intros [a i] [c j] [La _] [Lc _] H. simpl in La, Lc. assert (a = 0) as -> by lia. assert (c = 0) as -> by lia.
    destruct i, j; auto; unfold pedge, tv, tri_at in H; simpl in H; injection H as H1 H2; subst; try lia; try congruence.
    all: exfalso; lia.
  - exists (0, I0). split; [apply BP|reflexivity].
Qed.

Lemma start_Kst : Kst ps [lowest] [] [] ts0 (mkFront (frame_entries pts lowest plow) None).
Proof using PP Hp.
  assert (Lw : lowest < length pts) by (apply nth_error_lt in Hp; auto).
  pose proof (pr_head ps PP) as PH. pose proof (pr_tail ps PP) as PT.
  assert (NP : forall a i b j, ~ paired ts0 a i b j) by (intros a i b j (_ & _ & H & _); rewrite start_tn in H; discriminate).
  constructor.
  - constructor.
    + intros a i La. simpl in La. assert (a = 0) as -> by lia. change (ps_head ps) with (length pts) in PH. destruct i; unfold tv, tri_at; simpl; lia.
    + intros a La. simpl in La. assert (a = 0) as -> by lia. unfold tccw, ccw3, tv, tri_at. simpl.
      pose proof (pr_frame ps PP lowest Lw) as ([F1 F2] & F3 & F4). change (ps_head ps) with (length pts) in *. change (ps_tail ps) with (S (length pts)) in *.
      fold ps. unfold orient, orient_det. 
      remember (zc ps lowest) as zl. remember (zc ps (length pts)) as zh. remember (zc ps (S (length pts))) as zt.
      destruct zl as [lx ly], zh as [hx hy], zt as [tx ty]. simpl in *.
      assert (0 < (tx - lx) * (ly - hy))%Z by (apply Z.mul_pos_pos; lia). assert (0 < (lx - hx) * (ly - ty))%Z by (apply Z.mul_pos_pos; lia). nia.
    + intros a i b La H. rewrite start_tn in H. discriminate.
  - intros P Q H. destruct (NP _ _ _ _ H).
  - intros P Q (H & _). destruct (NP _ _ _ _ H).
  - apply start_bnd.
  - split; [apply start_chain|exact I].
  - intros i e He. apply nth_error_In in He. simpl in He. destruct He as [<-|[<-|[<-|[]]]]; simpl; auto.
  - intros _ a i b j H. destruct (NP _ _ _ _ H).
  - change (ps_head ps) with (length pts) in PH. apply (disc_start ps); try lia; [left; left; reflexivity|right; left; reflexivity|right; right; reflexivity|intros v [<-|[]]; reflexivity].
Qed.
Lemma start_marks : MK ps [] ts0.
Proof using.
  intros _. split; [|constructor]. intros u v. split.
  - intros ([a i] & La & _ & Hc). simpl in La. assert (a = 0) as -> by lia. destruct i; discriminate.
  - intros (e & [] & _).
Qed.
End Start.

(** the state and the remaining points when the sweep starts *)
Lemma run_start PD src calls (b : Builder PD) : builder_of PD src calls = Done b ->
  let pts := pb_points (bd_points b) in let es := pb_edges (bd_points b) in let ps := points_new pts es in
  proper ps -> pts <> [] ->
  exists lowest plow l, nth_error pts lowest = Some plow /\ run_init ps = Done (start_state pts lowest plow) /\ iter_point_by_y ps 1 = Done l /\
    Inv ps [lowest] (start_state pts lowest plow) /\ mtodo ps [lowest] l.
Proof.
  intros B pts es ps PP NE. pose proof (builder_BN PD src calls b B) as [_ BNS].
  apply builder_of_points in B as (B1 & _ & W). unfold bd_wf, wf_pb in W. fold pts es in BNS, W.
  destruct (start_ok pts es PP W NE) as (lowest & order & plow & l & Y & P & SS & Hp & RI & EI & Ids & Items). fold ps in RI, EI.
  exists lowest, plow, l. split; auto. split; auto. split; auto.
  split.
  { split; [exact I|]. split; intros _; [apply start_Kst; auto|]. apply start_marks. }
  assert (NDo : NoDup (lowest :: order)) by (eapply Permutation_NoDup; [apply Permutation_sym; eauto|apply seq_NoDup]).
  assert (LT : forall i j, In i (lowest :: order) -> In j (lowest :: order) -> i <> j -> id_yle pts i j -> ylt (zc ps i) (zc ps j)).
  { intros i j Ii Ij Nij Q. apply (Permutation_in _ P), in_seq in Ii. apply (Permutation_in _ P), in_seq in Ij.
    destruct (nth_error_ex pts i ltac:(lia)) as [pi Hi]. destruct (nth_error_ex pts j ltac:(lia)) as [pj Hj].
    specialize (Q pi pj Hi Hj). unfold yle in Q.
    assert (Zi : zc ps i = zp pi) by (unfold zc, ps; rewrite nth_pts, Hi by lia; auto).
    assert (Zj : zc ps j = zp pj) by (unfold zc, ps; rewrite nth_pts, Hj by lia; auto).
    destruct (ylt_total (zc ps i) (zc ps j)) as [L|[L|L]]; auto.
    - exfalso. apply Nij. apply (pr_inj ps PP); auto; unfold npts, ps; simpl; rewrite app_length; lia.
    - rewrite Zi, Zj in L. contradiction. }
  inversion NDo as [|? ? NI ND]; subst. inversion SS as [|? ? SS1 SS2]; subst.
   split; [|split; [|split]].
    - split; [exact ND|]. intros y Hy. destruct (Items y Hy) as [H1 H2].
      assert (Ly : fst (fst y) < length pts) by (apply nth_error_lt in H1; auto).
      split; [unfold ps; rewrite nth_pts; auto|]. split; [|exact Ly]. intros [Q|[]]. apply NI. rewrite Q. apply (in_map (fun y => fst (fst y)) _ _ Hy).
    - apply (StronglySorted_unmap (fun y : pid * Point * PointEdges => fst (fst y)) (fun i j => ylt (zc ps i) (zc ps j))).
      clear - ND SS1 LT. set (o := map _ l) in *. clearbody o.
      assert (IN : forall i, In i o -> In i (lowest :: o)) by (intros; right; auto). revert IN LT. generalize (lowest :: o) as big.
      intros big IN LT. induction o as [|i o IH]; [constructor|]. inversion SS1 as [|? ? S1 S2]; subst. inversion ND as [|? ? N1 N2]; subst. constructor.
      + apply IH; auto. intros; apply IN; right; auto.
      + rewrite Forall_forall in *. intros j Hj. apply LT; auto; [apply IN; left; auto|apply IN; right; auto|]. intros ->. contradiction.
    - intros v Lv. assert (Iv : In v (seq 0 (length pts))) by (apply in_seq; split; [lia|exact Lv]).
      apply (Permutation_in _ (Permutation_sym P)) in Iv as [Iv|Iv]; [left; left; exact Iv|right; exact Iv].
    - intros y Hy. assert (Iy : In (fst (fst y)) (map (fun y => fst (fst y)) l)) by (apply (in_map (fun y => fst (fst y)) _ _ Hy)).
      destruct (Items y Hy) as [H1 H2]. split.
      + intros e [<-|[]]. apply LT; [left; auto|right; auto|intros ->; contradiction|]. rewrite Forall_forall in SS2. apply SS2. exact Iy.
      + intros p Hin. destruct (BNS (proper_fin pts es PP) _ _ _ H2 Hin) as (ap & ay & Hap & Hay & Ylt).
        assert (Lp : p < length pts) by (apply nth_error_lt in Hap; auto). assert (Ly : fst (fst y) < length pts) by (apply nth_error_lt in Hay; auto).
        split; [exact Lp|]. split.
        * assert (Zi : zc ps p = zp ap) by (unfold zc, ps; rewrite nth_pts, Hap by lia; auto).
          assert (Zj : zc ps (fst (fst y)) = zp ay) by (unfold zc, ps; rewrite nth_pts, Hay by lia; auto). rewrite Zi, Zj. exact Ylt.
        * exists (snd y). split; [|exact Hin]. cbn. rewrite nth_error_app1; [exact H2|]. eapply nth_error_lt; eauto.
Qed.

(** what holds at every callback of every run *)
Theorem run_gclaims PD dbg fuel src calls (b : Builder PD) r cbs :
  builder_of PD src calls = Done b -> proper (c_points (build PD b)) -> scan_sound (c_points (build PD b)) ->
  observed dbg fuel (build PD b) = (r, cbs) ->
  gclaims (c_points (build PD b)) (rev cbs).
Proof.
  intros B PP SC O. apply observed_run in O as (r' & s & R & -> & _ & _). rewrite rev_involutive.
  pose proof (run_start PD src calls b B) as RS. cbv zeta in RS.
  change (c_points (build PD b)) with (points_new (pb_points (bd_points b)) (pb_edges (bd_points b))) in *.
  set (pts := pb_points (bd_points b)) in *. set (es := pb_edges (bd_points b)) in *.
  assert (C : pts = [] \/ pts <> []) by (destruct pts; [left|right]; congruence).
  destruct C as [C|NE].
  { rewrite C in R. unfold run, run_init in R. simpl in R. injection R as _ <-. exact I. }
  destruct (RS PP NE) as (lowest & plow & l & Hp & RI & EI & Hs & TD).
  unfold run in R. rewrite RI in R.
  set (ps := points_new pts es) in *.
  pose proof (run_body_inv dbg ps PP fuel l [lowest] _ SC EI Hs TD) as K.
  unfold wp in K. rewrite R in K. destruct r'; try exact K. destruct K as (D' & K & _). apply K.
Qed.

(** when a run is finished every input point is a vertex of the mesh *)
Theorem run_vertices PD dbg fuel src calls (b : Builder PD) t cbs :
  builder_of PD src calls = Done b -> proper (c_points (build PD b)) -> scan_sound (c_points (build PD b)) ->
  observed dbg fuel (build PD b) = (Done t, cbs) -> Good (c_points (build PD b)) (rev cbs) ->
  forall v, v < ps_head (c_points (build PD b)) -> vertex (tr_triangles t) v.
Proof.
  intros B PP SC O G v Lv. apply observed_run in O as (r' & s & R & -> & _ & Er). rewrite rev_involutive in G.
  pose proof (run_start PD src calls b B) as RS. cbv zeta in RS.
  change (c_points (build PD b)) with (points_new (pb_points (bd_points b)) (pb_edges (bd_points b))) in *.
  set (pts := pb_points (bd_points b)) in *. set (es := pb_edges (bd_points b)) in *.
  assert (NE : pts <> []) by (intro Q; rewrite Q in Lv; cbn in Lv; lia).
  destruct (RS PP NE) as (lowest & plow & l & Hp & RI & EI & Hs & TD).
  unfold run in R. rewrite RI in R.
  set (ps := points_new pts es) in *.
  pose proof (run_body_inv dbg ps PP fuel l [lowest] _ SC EI Hs TD) as K.
  unfold wp in K. rewrite R in K. destruct r' as [u|p|u|]; try discriminate. destruct K as (D' & (_ & K & _) & HA).
  cbn [rbind] in Er. injection Er as ->. destruct (K G) as [_ _ _ _ _ _ _ DI]. apply (di_vert _ _ _ DI). apply HA. exact Lv.
Qed.
End S.
