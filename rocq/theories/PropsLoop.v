(** * PropsLoop: C28, a valid polygon on which [triangulate] never returns

    The witness is a simple polygon with eight small integer vertices in
    general position.  Without debug assertions no amount of fuel is enough:
    [fill_right_below_edge_event] calls [fill_right_convex_edge_event], which
    changes nothing and still answers [Some(())] (sweeper.rs:701-705), and then
    calls itself with the same arguments (sweeper.rs:634-636).  The front was
    brought into that state by the argument of sweeper.rs:698. *)
From Coq Require Import List ZArith Bool Lia.
From Coq.Floats Require Import SpecFloat.
From Verif Require Import Base Num Shape Points Front Sweeper Cdt F64 Exact F64Exact Spec PropsRefuted Fuel.
Import ListNotations.
Local Open Scope Z_scope.

Definition w_loop : list zpt := [(1,17);(4,19);(16,9);(18,7);(5,10);(10,6);(11,5);(0,3)].

Section Facts.
Context {A : Arith}.
Lemma bind_oof {T U} (m : M T) (k : T -> M U) s : fst (m s) = OutOfFuel -> fst (bind m k s) = OutOfFuel.
Proof. unfold bind. destruct (m s) as [[x|p|u|] s']; cbn; congruence. Qed.
Lemma bind_done {T U} (m : M T) (k : T -> M U) s x s' : m s = (Done x, s') -> bind m k s = k x s'.
Proof. unfold bind. intros ->. reflexivity. Qed.
(** the fuel of a finished computation is irrelevant *)
Lemma fm_done {T} (m m' : M T) s x : fm m m' -> fst (m s) = Done x -> m' s = (Done x, snd (m s)).
Proof. intros H D. destruct (H s) as (_ & H2 & _). rewrite H2 by congruence. rewrite <- D. destruct (m s); reflexivity. Qed.
Lemma sweep_loop_app dbg ps f : forall l1 l2 s s1, sweep_loop dbg ps f l1 s = (Done tt, s1) ->
  sweep_loop dbg ps f (l1 ++ l2) s = sweep_loop dbg ps f l2 s1.
Proof.
  induction l1 as [|[[id p] es] l1 IH]; intros l2 s s1 H; [injection H as <-; reflexivity|].
  cbn [sweep_loop app] in *.
  unfold bind in *.
  repeat match goal with
  | H : context [match ?m ?s with (_, _) => _ end] |- _ =>
      lazymatch m with sweep_loop _ _ _ _ => fail | _ => destruct (m s) as [[?x|?|?|] ?s']; try discriminate end
  end.
  apply IH. destruct (sweep_loop dbg ps f l1 _) as [[[]|?|?|] ?]; congruence.
Qed.
End Facts.

(** the points of the witness and the states its run goes through *)
Definition lp_ps : @Points F64 := match cdt64 w_loop [] [] with Done c => c_points c | _ => pb_build pb_new end.
Definition lp_events := match iter_point_by_y lp_ps 1 with Done l => l | _ => [] end.
Definition lp_s0 : Sweeper := match run_init lp_ps with Done s => s | _ => empty_sweeper end.
Definition lp_l1 := firstn 4 lp_events.
Definition lp_l2 := skipn 5 lp_events.
Definition lp_q : @Point F64 := pt64 (5,10).
Definition lp_p : @Point F64 := pt64 (18,7).
Definition lp_s1 := snd (sweep_loop false lp_ps 60 lp_l1 lp_s0).
Definition lp_s2 := snd (emit (EvEnterPoint 4) lp_s1).
Definition lp_s3 := snd (point_event false lp_ps 60 4 lp_q lp_s2).
Definition lp_s4 := snd (emit (EvExitPoint 4) lp_s3).
(** the edge from (18,7) up to (5,10) *)
Definition lp_e := mkEdge 3 4.
Definition lp_ce : @ConstrainedEdge F64 := mkCE lp_e lp_p lp_q (f_lt (px lp_q) (px lp_p)).
Definition lp_node : @NodeRef F64 := match node_with_cache lp_q lp_s4 with (Done n, _) => n | _ => mkNodeRef 0 lp_q None 0 end.
Definition lp_id : @NodeId F64 := get_node_id lp_node.
Definition lp_s5 := snd (node_with_cache lp_q lp_s4).
Definition lp_s6 := snd (try_mark_edge_for_triangle 3 4 (nr_tri lp_node) lp_s5).
Definition lp_s7 := snd (fill_right_convex_edge_event false lp_ps 60 lp_ce lp_id lp_s6).

(** [fill_right_convex_edge_event] has nothing to do in this state, and says that it did something *)
Lemma lp_convex1 f : (60 <= f)%nat -> fill_right_convex_edge_event false lp_ps f lp_ce lp_id lp_s6 = (Done (Some tt), lp_s7).
Proof. intro L. apply fm_done with (m := fill_right_convex_edge_event false lp_ps 60 lp_ce lp_id); [apply fm_right_convex; exact L|]. vm_compute. reflexivity. Qed.
Lemma lp_convex2 f : (60 <= f)%nat -> fill_right_convex_edge_event false lp_ps f lp_ce lp_id lp_s7 = (Done (Some tt), lp_s7).
Proof.
  intro L. assert (E : fill_right_convex_edge_event false lp_ps 60 lp_ce lp_id lp_s7 = (Done (Some tt), lp_s7)) by (vm_cast_no_check (eq_refl (@Done (option unit) (Some tt), lp_s7))).
  assert (F : fst (fill_right_convex_edge_event false lp_ps 60 lp_ce lp_id lp_s7) = Done (Some tt)) by (rewrite E; reflexivity).
  rewrite (fm_done _ _ _ _ (fm_right_convex false lp_ps f 60 lp_ce lp_id L) F), E. reflexivity.
Qed.
(** one call of [fill_right_below_edge_event] in the two states: the orientation
    test says "convex" *)
Lemma lp_below f s : s = lp_s6 \/ s = lp_s7 ->
  fill_right_below_edge_event false lp_ps (Datatypes.S f) lp_ce lp_id s =
  bind (fill_right_convex_edge_event false lp_ps f lp_ce lp_id)
    (fun r => match r with None => skip | Some _ => fill_right_below_edge_event false lp_ps f lp_ce lp_id end) s.
Proof.
  intro H. cbn [fill_right_below_edge_event].
  generalize (fill_right_concave_edge_event false lp_ps f) (fill_right_convex_edge_event false lp_ps f) (fill_right_below_edge_event false lp_ps f).
  intros r1 r2 r3. destruct H as [-> | ->]; match goal with |- _ = ?x => vm_cast_no_check (eq_refl x) end.
Qed.

(** a call that leaves the state alone, repeated for ever *)
Lemma forever {A : Arith} {T U} (c : nat -> M T) (b : nat -> M U) (k : T -> bool) (k0 : T -> M U) s x :
  (forall f f', (f <= f')%nat -> fm (c f) (c f')) -> c 60%nat s = (Done x, s) -> (forall f, (60 <= f)%nat -> c f s = (Done x, s)) ->
  b 0%nat s = (OutOfFuel, s) -> k x = true ->
  (forall f, b (Datatypes.S f) s = bind (c f) (fun r => if k r then b f else k0 r) s) ->
  forall f, fst (b f s) = OutOfFuel.
Proof.
  intros Hf H60 Hc H0 Hk Hb. induction f as [|f IH]; [rewrite H0; reflexivity|]. rewrite Hb.
  destruct (Compare_dec.le_lt_dec 60 f) as [L|L].
  - rewrite (bind_done _ _ _ _ _ (Hc f L)), Hk. exact IH.
  - (* little fuel: whatever the call does, it is followed by the same call, or runs out *)
    destruct (Hf f 60%nat (Nat.lt_le_incl _ _ L) s) as (_ & H2 & _). rewrite H60 in H2.
    destruct (c f s) as [r s'] eqn:E.
    destruct r as [y|y|y|]; try (specialize (H2 ltac:(discriminate)); injection H2 as <- <-; rewrite (bind_done _ _ _ _ _ E), Hk; exact IH);
      try (specialize (H2 ltac:(discriminate)); discriminate H2).
    apply bind_oof. rewrite E. reflexivity.
Qed.
Lemma lp_forever : forall f, fst (fill_right_below_edge_event false lp_ps f lp_ce lp_id lp_s7) = OutOfFuel.
Proof.
  apply (forever (fun f => fill_right_convex_edge_event false lp_ps f lp_ce lp_id) (fun f => fill_right_below_edge_event false lp_ps f lp_ce lp_id)
    (fun r => match r with None => false | Some _ => true end) (fun _ => skip) lp_s7 (Some tt)).
  - intros f f' L. apply fm_right_convex. exact L.
  - apply lp_convex2. lia.
  - exact lp_convex2.
  - reflexivity.
  - reflexivity.
  - intro f. rewrite (lp_below f lp_s7 (or_intror eq_refl)). unfold bind.
    destruct (fill_right_convex_edge_event false lp_ps f lp_ce lp_id lp_s7) as [[[x|]|x|x|] s']; reflexivity.
Qed.
Lemma lp_above f : (62 <= f)%nat -> fst (fill_right_above_edge_event false lp_ps f lp_ce lp_id lp_s6) = OutOfFuel.
Proof.
  intro L. destruct f as [|[|f]]; try lia.
  assert (E : fill_right_above_edge_event false lp_ps (Datatypes.S (Datatypes.S f)) lp_ce lp_id lp_s6 =
    bind (fill_right_below_edge_event false lp_ps (Datatypes.S f) lp_ce lp_id) (fun _ => fill_right_above_edge_event false lp_ps (Datatypes.S f) lp_ce lp_id) lp_s6).
  { remember (Datatypes.S f) as g. cbn [fill_right_above_edge_event].
    generalize (fill_right_below_edge_event false lp_ps g) (fill_right_above_edge_event false lp_ps g). intros r1 r2.
    match goal with |- _ = ?x => vm_cast_no_check (eq_refl x) end. }
  rewrite E. apply bind_oof. rewrite (lp_below f lp_s6 (or_introl eq_refl)).
  assert (L' : (60 <= f)%nat) by lia. rewrite (bind_done _ _ _ _ _ (lp_convex1 f L')). apply lp_forever.
Qed.
Lemma lp_edge f : (62 <= f)%nat -> fst (edge_event false lp_ps f lp_e lp_q lp_s4) = OutOfFuel.
Proof.
  intro L. unfold edge_event.
  rewrite (bind_done _ _ _ lp_p lp_s4) by (match goal with |- _ = ?x => vm_cast_no_check (eq_refl x) end).
  rewrite (bind_done _ _ _ lp_node lp_s5) by (match goal with |- _ = ?x => vm_cast_no_check (eq_refl x) end).
  rewrite (bind_done _ _ _ 5%nat lp_s5) by (match goal with |- _ = ?x => vm_cast_no_check (eq_refl x) end).
  rewrite (bind_done _ _ _ false lp_s6) by (match goal with |- _ = ?x => vm_cast_no_check (eq_refl x) end).
  apply bind_oof. assert (R : ce_right lp_ce = true) by (vm_compute; reflexivity). unfold fill_edge_event.
  change (ce_right (mkCE lp_e lp_p lp_q (f_lt (px lp_q) (px lp_p)))) with (ce_right lp_ce). rewrite R. exact (lp_above f L).
Qed.
Lemma lp_sweep f : (62 <= f)%nat -> fst (sweep_points false lp_ps f lp_s0) = OutOfFuel.
Proof.
  intro L. unfold sweep_points.
  rewrite (bind_done _ _ _ lp_events lp_s0) by (match goal with |- _ = ?x => vm_cast_no_check (eq_refl x) end).
  assert (D : lp_events = lp_l1 ++ (4%nat, lp_q, ETwo 3 5) :: lp_l2) by (vm_cast_no_check (eq_refl lp_events)).
  rewrite D.
  assert (D1 : sweep_loop false lp_ps f lp_l1 lp_s0 = (Done tt, lp_s1)).
  { apply fm_done with (m := sweep_loop false lp_ps 60 lp_l1); [apply fm_sweep_loop; lia|]. vm_compute. reflexivity. }
  rewrite (sweep_loop_app _ _ _ _ _ _ _ D1). cbn [sweep_loop].
  rewrite (bind_done _ _ lp_s1 tt lp_s2) by (match goal with |- _ = ?x => vm_cast_no_check (eq_refl x) end).
  assert (D2 : point_event false lp_ps f 4 lp_q lp_s2 = (Done tt, lp_s3)).
  { apply fm_done with (m := point_event false lp_ps 60 4 lp_q); [apply fm_point_event; lia|]. vm_compute. reflexivity. }
  rewrite (bind_done _ _ lp_s2 tt lp_s3 D2).
  rewrite (bind_done _ _ lp_s3 tt lp_s4) by (match goal with |- _ = ?x => vm_cast_no_check (eq_refl x) end).
  apply bind_oof. change (edges_list (ETwo 3 5)) with [3;5]%nat. cbn [edges_loop]. apply bind_oof. exact (lp_edge f L).
Qed.

Lemma run_oof_less {A : Arith} dbg ps f g : (f <= g)%nat -> fst (run dbg g ps) = OutOfFuel -> fst (run dbg f ps) = OutOfFuel.
Proof.
  intros L Q. unfold run in *. destruct (run_init ps) as [s|p|u|]; try discriminate Q; [|reflexivity].
  destruct (fm_run_body dbg ps f g L s) as (_ & H & _).
  destruct (run_body dbg f ps s) as [[x|x|x|] s']; cbn [fst] in *; try reflexivity; rewrite H in Q by discriminate; discriminate Q.
Qed.
Lemma run_oof {A : Arith} dbg ps f s : run_init ps = Done s -> fst (sweep_points dbg ps f s) = OutOfFuel -> fst (run dbg f ps) = OutOfFuel.
Proof. intros R H. unfold run. rewrite R. unfold run_body. apply bind_oof. exact H. Qed.
Lemma triangulate_oof dbg fuel poly ps : (forall f, fst (run dbg f ps) = OutOfFuel) ->
  (forall c, cdt64 poly [] [] = Done c -> c_points c = ps) -> erase (cdt64 poly [] []) = Done tt -> triangulate64 dbg fuel poly [] [] = OutOfFuel.
Proof.
  intros R P E. unfold triangulate64. destruct (cdt64 poly [] []) as [c|x|x|]; try discriminate E. cbn [rbind].
  unfold triangulate, triangulate_with_observer. rewrite (P c eq_refl). specialize (R fuel). destruct (run dbg fuel ps) as [r s'].
  cbn [fst] in *. rewrite R. reflexivity.
Qed.
Lemma lp_init : run_init lp_ps = Done lp_s0.
Proof. vm_cast_no_check (eq_refl (run_init lp_ps)). Qed.
Lemma lp_run f : fst (run false f lp_ps) = OutOfFuel.
Proof.
  apply (run_oof_less _ _ f (62 + f)); [lia|]. apply (run_oof _ _ _ _ lp_init). apply lp_sweep. lia.
Qed.
Lemma cdt_points poly c : cdt64 poly [] [] = Done c -> c_points c = match cdt64 poly [] [] with Done c => c_points c | _ => pb_build pb_new end.
Proof. intros ->. reflexivity. Qed.

(** C28, as stated: every simple polygon in general position is triangulated in finitely many steps *)
Definition C28_claim : Prop := forall dbg poly, valid poly -> exists fuel, triangulate64 dbg fuel poly [] [] <> OutOfFuel.
Theorem C28_never_returns : valid w_loop /\ forall fuel, triangulate64 false fuel w_loop [] [] = OutOfFuel.
Proof.
  split; [split; vm_compute; reflexivity|]. intro fuel.
  apply (triangulate_oof false fuel w_loop lp_ps lp_run (cdt_points w_loop)). vm_compute. reflexivity.
Qed.
Theorem C28_terminates_refuted : ~ C28_claim.
Proof. intro H. destruct C28_never_returns as (V & Q). destruct (H false w_loop V) as (fuel & E). exact (E (Q fuel)). Qed.
Print Assumptions C28_never_returns.
Print Assumptions C28_terminates_refuted.
