(** * PropsConvex: the convex case of right-leaning edges (C40)

    When an edge p-q is inserted whose lower end p lies to the right of its upper end q, the sweep first fills the
    front from q to the right as far as it dips below the line q-p.  If the front does not turn left at the first
    such vertex, the code takes the branch of sweeper.rs:679-706, which fills at the wrong node (sweeper.rs:698
    passes the node instead of its successor).  C40 states the effect in terms of what an observer sees: the
    very next callback announces a new triangle that is not counter-clockwise.

    Together with [C22_first_inversion] (the first triangle that is not counter-clockwise always comes from an edge
    leaning to the right) this characterizes the fault from both sides. *)
From Coq Require Import List Arith Bool Lia ZArith Permutation Sorted.
From Verif Require Import Base Num Shape ShapeSpec Utils Points Triangles Front Sweeper Cdt F64 Lists BuilderSpec History SortSpec Monad Traverse TraceSpec Grow
  Exact F64Exact Spec PropsBuilder PropsTrace PropsSafe FrontSpec Geom Mesh Rotate Setup Legal Legalize Boundary Chain Remap Attach FrontInv Disc Good Marks Flips Init PropsFront Fills MeshRun MeshStart LegalTotal
  Cone Planar Corridor Frames Insert PropsMesh PropsFinal FanAll Total FrontSub FillTotal EdgeFill NoCross CorTotal InsertTotal EdgeTotal RunTotal Local Fuel PropsTotal Convex ConvexRun.
Import ListNotations.

Section S.
Context {A : Arith} {E : Exact A}.

Lemma NX_ends ps x s1 : Forall (fun cb => cb_event cb = EvSweepDone \/ cb_event cb = EvFinalized) x -> NX ps (s_trace s1) -> NX ps (x ++ s_trace s1).
Proof.
  induction 1 as [|cb x H _ IH]; intro K; auto. cbn [app]. apply NX_cons; auto. intro T.
  apply trigger_event in T as (q & [Q|[p Q]]); destruct H; congruence.
Qed.

Lemma run_nx PD dbg src calls (b : Builder PD) : builder_of PD src calls = Done b -> let ps := c_points (build PD b) in
  history_points PD src calls <> [] -> proper ps -> planar ps -> eps_ok ps ->
  forall fuel, steps (length (history_points PD src calls)) <= fuel -> forall r cbs, observed dbg fuel (build PD b) = (r, cbs) -> NX ps (rev cbs).
Proof.
  intros B ps NE PP PN EO.
  intros fuel LE r cbs O. destruct (run_fuel PD src calls b fuel B LE) as (HF & _ & _). fold ps in HF.
  pose proof (run_start PD src calls b B) as RS. cbv zeta in RS.
  pose proof (builder_of_points PD src calls b B) as (B1 & _ & W). unfold bd_wf, wf_pb in W.
  apply observed_run in O as (r' & s & R & TRC & _ & Er).
  change (points_new (pb_points (bd_points b)) (pb_edges (bd_points b))) with ps in RS.
  destruct (RS PP ltac:(rewrite B1; exact NE)) as (lowest & plow & l & Hp & RI & EI & HI & TD).
  set (s0 := start_state (pb_points (bd_points b)) lowest plow) in *.
  unfold run in R. change (c_points (build PD b)) with ps in R. rewrite RI in R.
  assert (LL : lowest < ps_head ps) by (apply nth_error_lt in Hp; exact Hp).
  destruct (pr_frame ps PP lowest LL) as (F1 & F2 & F3).
  assert (T0 : TK ps [lowest] [ps_head ps; lowest; ps_tail ps] s0).
  { constructor; auto.
    - constructor.
    - pose proof (pr_head ps PP). cbn [length]; lia.
    - intros v [<-|[]]. left. simpl. auto. }
  assert (SX0 : sx ps [ps_head ps; lowest; ps_tail ps]).
  { intros u w [<-|[<-|[<-|[]]]] [<-|[<-|[<-|[]]]]; auto; lia. }
  assert (ND0 : NoDup [lowest]) by (constructor; [intros []|constructor]).
  assert (HD0 : forall v, In v [lowest] -> v < ps_head ps) by (intros v [<-|[]]; auto).
  assert (HE : forall y, In y l -> nth_error (ps_edges ps) (fst (fst y)) = Some (snd y)).
  { destruct (iter_point_ok (pb_points (bd_points b)) (pb_edges (bd_points b)) W) as (l' & El & Fl).
    assert (QL : l' = l) by (apply (f_equal (fun z => z)) in EI; change (c_points (build PD b)) with (points_new (pb_points (bd_points b)) (pb_edges (bd_points b))) in ps; unfold ps in EI; rewrite El in EI; injection EI as ->; reflexivity).
    subst l'. intros y IN. revert IN. clear - Fl. induction Fl as [|id x ids l (H1 & H2 & H3) F IH]; intros IN; [destruct IN|].
    destruct IN as [->|IN]; auto. rewrite H1. unfold ps. cbn. apply nth_error_lt in H3 as LT. rewrite nth_error_app1 by exact LT. exact H3. }
  assert (HN0 : NX ps (s_trace s0)).
  { intros l1 l2 Q _ T. change (s_trace s0) with (@nil callback) in Q. symmetry in Q. apply app_eq_nil in Q as [_ ->]. destruct T. }
  pose proof (sweep_loop_nx dbg ps PP fuel PN EO HF l [lowest] _ s0 T0 SX0 ND0 HD0 TD HE HN0) as SW.
  unfold run_body, sweep_points, bind, lift in R. rewrite EI in R. unfold lx in SW.
  destruct (sweep_loop dbg ps fuel l s0) as [r1 s1] eqn:QS. cbn [fst snd] in SW. destruct (SW (Forall_nil _)) as [_ K].
  rewrite TRC, rev_involutive.
  assert (TS : exists x, s_trace s = x ++ s_trace s1 /\ Forall (fun cb => cb_event cb = EvSweepDone \/ cb_event cb = EvFinalized) x).
  { destruct r1 as [u|p|u|]; [|injection R as <- <-; exists []; split; [reflexivity|constructor]..].
    unfold emit in R at 1. set (s1' := mkSw _ _ _ _) in R.
    pose proof (trace_only (fun s' => s_trace s' = s_trace s1') ltac:(cbv beta; intros; congruence) fuel s1' eq_refl) as TO. unfold wp in TO.
    destruct (finalize_polygon fuel s1') as [r2 s2]. destruct r2 as [u2|p|u2|]; cbv beta in TO.
    - unfold emit in R. injection R as <- <-. cbn [s_trace]. rewrite TO. eexists [_; _]. split; [reflexivity|]. repeat (apply Forall_cons; [cbn; auto|]); apply Forall_nil.
    - injection R as <- <-. eexists [_]. split; [exact TO|]. repeat (apply Forall_cons; [cbn; auto|]); apply Forall_nil.
    - injection R as <- <-. eexists [_]. split; [exact TO|]. repeat (apply Forall_cons; [cbn; auto|]); apply Forall_nil.
    - injection R as <- <-. eexists [_]. split; [exact TO|]. repeat (apply Forall_cons; [cbn; auto|]); apply Forall_nil. }
  destruct TS as (x & -> & FX). apply NX_ends; auto.
Qed.

(** ** C40
    [next_edge ps w p q]: after the events w the next edge to be inserted is p-q.
    [dips ps vs p q]: p is right of q, and the front vs passes through q, then through vertices on or above
    the line q-p, then through a vertex v below the line and still left of p, where it does not turn left.
    [unmade ts p q]: no triangle has both ends of the edge as vertices. *)
Theorem C40_convex_branch_inverts : forall PD dbg src calls (b : Builder PD),
  builder_of PD src calls = Done b -> let ps := c_points (build PD b) in
  history_points PD src calls <> [] -> proper ps -> planar ps -> eps_ok ps ->
  forall fuel r before cb after p q, observed dbg fuel (build PD b) = (r, before ++ cb :: after) ->
  fills_ccw ps (before ++ [cb]) -> outer (cb_event cb) = true ->
  next_edge ps (map cb_event (before ++ [cb])) p q -> dips ps (map en_pid (nodes (cb_front cb))) p q -> unmade (cb_tris cb) p q ->
  r = OutOfFuel /\ after = [] \/
  exists next rest t, after = next :: rest /\ cb_event next = EvWillLegalize (Some t) /\ S t = length (cb_tris next) /\
    (orient (zc ps (tv (cb_tris next) t I0)) (zc ps (tv (cb_tris next) t I1)) (zc ps (tv (cb_tris next) t I2)) <= 0)%Z.
Proof.
  intros PD dbg src calls b B ps NE PP PN EO fuel r before cb after p q O F OU NXE DI UM.
  pose proof (run_nx PD dbg src calls b B NE PP PN EO) as H. set (f0 := steps (length (history_points PD src calls))) in *.
  destruct (observed dbg (fuel + f0) (build PD b)) as [r2 cbs2] eqn:O2.
  specialize (H (fuel + f0) ltac:(lia) _ _ O2).
  assert (K : forall aft, cbs2 = before ++ cb :: aft -> exists next rest t, aft = next :: rest /\ cb_event next = EvWillLegalize (Some t) /\ S t = length (cb_tris next) /\
    (orient (zc ps (tv (cb_tris next) t I0)) (zc ps (tv (cb_tris next) t I1)) (zc ps (tv (cb_tris next) t I2)) <= 0)%Z).
  { intros aft ->. assert (RV : rev (before ++ cb :: aft) = rev aft ++ rev (before ++ [cb])) by (rewrite !rev_app_distr; cbn [rev]; rewrite <- app_assoc; reflexivity).
    destruct (H (rev aft) (rev (before ++ [cb])) RV (fills_good _ _ F)) as (l & next & Q & NB).
    - rewrite rev_app_distr. cbn [rev app]. split; auto. exists p, q. split; [|auto].
      assert (RI : rev (cb :: rev before) = before ++ [cb]) by (cbn [rev]; rewrite rev_involutive; reflexivity). rewrite RI. exact NXE.
    - apply (f_equal (@rev _)) in Q. rewrite rev_involutive, rev_app_distr in Q. cbn [rev app] in Q.
      unfold good_cb in NB. destruct (cb_event next) as [| | | | |[t|]| | |] eqn:EV; try (destruct NB; exact Logic.I).
      exists next, (rev l), t. split; auto. split; auto.
      destruct (Nat.eq_dec (S t) (length (cb_tris next))) as [L|L]; [|destruct NB; intro; contradiction]. split; auto.
      unfold tccw, ccw3 in NB. destruct (Z_lt_dec 0 (orient (zc ps (tv (cb_tris next) t I0)) (zc ps (tv (cb_tris next) t I1)) (zc ps (tv (cb_tris next) t I2)))); [destruct NB; intros _; auto|lia]. }
  pose proof (fuel_irrelevant PD dbg fuel (fuel + f0) (build PD b) r _ O ltac:(lia)) as FI. rewrite O2 in FI.
  destruct r; try (right; injection FI as _ Q; apply K; exact Q). cbn [snd] in FI. destruct FI as [more FI].
  rewrite <- app_assoc in FI. cbn [app] in FI. destruct (K _ FI) as (next & rest & t & Q & K').
  destruct after as [|next' after']; [left; auto|right]. cbn [app] in Q. injection Q as -> _. exists next, after', t. auto.
Qed.
End S.

(** a run that meets the hypotheses: the pentagon of [inversion_example].  After the edge 1-0 the edge 4-0 follows;
    the front is head 0 1 2 3 4 tail, vertex 1 is below the line 0-4 and the chain 0 1 2 turns right at it. *)
From Verif Require Import FloatLaws PropsCup PropsMarks.
Fixpoint pop {X} (l : list X) : option (list X * X) :=
  match l with [] => None | [x] => Some ([], x) | x :: l' => match pop l' with Some (a, y) => Some (x :: a, y) | None => None end end.
Lemma pop_ok {X} (l : list X) a y : pop l = Some (a, y) -> l = a ++ [y].
Proof.
  revert a y. induction l as [|x l IH]; intros a y H; [discriminate|]. cbn in H. destruct l as [|z l]; [injection H as <- <-; reflexivity|].
  destruct (pop (z :: l)) as [[a' y']|]; [|discriminate]. injection H as <- <-. rewrite (IH _ _ eq_refl). reflexivity.
Qed.
Definition unmadeb (ts : list InnerTriangle) (p q : nat) : bool :=
  forallb (fun t => negb (existsb (Nat.eqb p) (map (V t) [I0; I1; I2]) && existsb (Nat.eqb q) (map (V t) [I0; I1; I2]))) ts.
Lemma unmadeb_ok (ts : list InnerTriangle) p q : unmadeb ts p q = true -> unmade ts p q.
Proof.
  intros H t i j L H1 H2. unfold unmadeb in H. rewrite forallb_forall in H.
  assert (TI : In (tri_at ts t) ts) by (apply nth_In; exact L).
  specialize (H _ TI). apply negb_true_iff, andb_false_iff in H. unfold tv in H1, H2.
  assert (Z : forall k v, V (tri_at ts t) k = v -> existsb (Nat.eqb v) (map (V (tri_at ts t)) [I0; I1; I2]) = true).
  { intros k v <-. destruct k; cbn; rewrite Nat.eqb_refl, ?orb_true_r; reflexivity. }
  rewrite (Z _ _ H1), (Z _ _ H2) in H. destruct H; discriminate.
Qed.
Example convex_example : exists (b : @Builder F64 unit) r before cb after, builder_of unit inverted_src [] = Done b /\ let ps := c_points (build unit b) in
  history_points unit inverted_src [] <> [] /\ proper ps /\ planar ps /\ eps_ok ps /\
  observed false 200 (build unit b) = (r, before ++ cb :: after) /\ r <> OutOfFuel /\ fills_ccw ps (before ++ [cb]) /\ outer (cb_event cb) = true /\
  next_edge ps (map cb_event (before ++ [cb])) 4 0 /\ dips ps (map en_pid (nodes (cb_front cb))) 4 0 /\ unmade (cb_tris cb) 4 0.
Proof.
  assert (R : match builder_of unit inverted_src [] with
    | Done b => let ps := c_points (build unit b) in properb ps && planeb ps (history_edges unit inverted_src []) && fillsb ps &&
       ((fst (zc ps 0) <? fst (zc ps 4)) && (0 <? orient (zc ps 0) (zc ps 1) (zc ps 4)) && (fst (zc ps 1) <? fst (zc ps 4)) && (orient (zc ps 0) (zc ps 1) (zc ps 2) <=? 0))%Z &&
       match observed false 200 (build unit b) with (Done _, cbs) => match split_bad (goodb ps) cbs with Some (x, _, _) => match pop x with Some (before, cb) => unmadeb (cb_tris cb) 4 0 | None => false end | None => false end | _ => false end
    | _ => false end = true) by (vm_compute; reflexivity).
  assert (R2 : match builder_of unit inverted_src [] with
    | Done b => let ps := c_points (build unit b) in 
       match observed false 200 (build unit b) with (_, cbs) => match split_bad (goodb ps) cbs with Some (x, _, _) => match pop x with Some (before, cb) =>
          Some (nth_error (ps_edges ps) 0, filter outer (map cb_event (before ++ [cb])), map en_pid (nodes (cb_front cb)), cb_event cb) | None => None end | None => None end end
    | _ => None end = Some (Some (ETwo 1 4),
        [EvEnterPoint 4; EvExitPoint 4; EvEdge (mkEdge 3 4); EvEnterPoint 2; EvExitPoint 2; EvEdge (mkEdge 3 2); EvEnterPoint 1; EvExitPoint 1; EvEdge (mkEdge 2 1);
         EvEnterPoint 0; EvExitPoint 0; EvEdge (mkEdge 1 0)], [5; 0; 1; 2; 3; 4; 6], EvEdge (mkEdge 1 0))) by (vm_compute; reflexivity).
  destruct (builder_of unit inverted_src []) as [b| | |] eqn:B; try discriminate. cbv zeta in R, R2. rewrite !andb_true_iff in R. destruct R as ((((R1 & R3) & R4) & (((R6 & R7) & R8) & R9)) & R5).
  destruct (observed false 200 (build unit b)) as [[t| | |] cbs] eqn:O; try discriminate.
  destruct (split_bad (goodb (c_points (build unit b))) cbs) as [[[x bad] after]|] eqn:SB; [|discriminate]. apply split_bad_ok in SB as (-> & G1 & G2).
  destruct (pop x) as [[before cb]|] eqn:PO; [|discriminate]. apply pop_ok in PO as ->. injection R2 as N1 N2 N3 N4.
  exists b, (Done t), before, cb, (bad :: after). split; [reflexivity|]. cbv zeta. destruct (fillsb_ok _ R4).
  split; [discriminate|]. split; [apply properb_ok; auto|]. split; [apply (plane_planar _ _ _ _ F64_eq_not_lt F64_eq_sym B), planeb_ok; auto|]. split; auto.
  split; [rewrite <- app_assoc in O; exact O|]. split; [discriminate|]. split; [apply goodb_ok; auto|]. split; [rewrite N4; reflexivity|].
  split; [|split; [|apply unmadeb_ok; exact R5]].
  - exists (ETwo 1 4), [1], [], [EvEnterPoint 4; EvExitPoint 4; EvEdge (mkEdge 3 4); EvEnterPoint 2; EvExitPoint 2; EvEdge (mkEdge 3 2); EvEnterPoint 1; EvExitPoint 1; EvEdge (mkEdge 2 1); EvEnterPoint 0].
    split; [exact N1|]. split; [reflexivity|]. exact N2.
  - apply Z.ltb_lt in R6, R7, R8. apply Z.leb_le in R9. split; [exact R6|]. exists [5], [], 1, 2, [3; 4; 6]. split; [exact N3|]. auto.
Qed.
Print Assumptions C40_convex_branch_inverts.
Print Assumptions right_convex_nb.
