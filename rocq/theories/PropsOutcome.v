(** * PropsOutcome: what can happen on an input with integer coordinates

    The theorems of PropsTotal.v on integer inputs, without hypotheses about floating point: a run either returns
    the constrained Delaunay triangulation of the region, or it announces a triangle that is not counter-clockwise;
    the first such triangle is created while a right-leaning edge with a cap below it is being inserted. *)
From Coq Require Import List Arith Bool Lia ZArith.
From Coq.Floats Require Import SpecFloat.
From Verif Require Import Base Num Shape ShapeSpec Utils Points Triangles Front Sweeper Cdt F64 Lists BuilderSpec History SortSpec Monad Traverse TraceSpec Grow
  Exact F64Exact FloatLaws Spec PropsBuilder PropsTrace PropsSafe FrontSpec Geom Mesh Setup Good Init Winding CoverRun Stokes Region PropsMesh PropsCover PropsMarks PropsRegion FillTotal Local PropsTotal PropsCup PropsTri F64Real IntSpec IntF64 IntRun IntHyp PropsInt PropsCdt PropsCdtInt PropsIntEx PropsRefuted PropsLoop.
Import ListNotations.
Local Open Scope nat_scope.

(** the callback announces a new triangle, and its corners are not counter-clockwise *)
Definition announces_inverted (ps : @Points F64) (cb : @callback F64) : Prop := exists t, cb_event cb = EvWillLegalize (Some t) /\ S t = length (cb_tris cb) /\
  (orient (zc ps (tv (cb_tris cb) t I0)) (zc ps (tv (cb_tris cb) t I1)) (zc ps (tv (cb_tris cb) t I2)) <= 0)%Z.
Lemma last_inverted ps before cb : fills_ccw ps before -> ~ fills_ccw ps (before ++ [cb]) -> announces_inverted ps cb.
Proof.
  intros F NF. destruct (cb_event cb) as [| | | | |[t|]| | |] eqn:E.
  6: { destruct (Nat.eq_dec (S t) (length (cb_tris cb))) as [L|L].
    - exists t. split; [exact E|]. split; [exact L|]. apply Z.nlt_ge. intro P. apply NF. intros c t' I1' E' L'.
      apply in_app_or in I1' as [I1'|[<-|[]]]; [exact (F c t' I1' E' L')|]. assert (t' = t) by congruence. subst t'. exact P.
    - exfalso. apply NF. intros c t' I1' E' L'. apply in_app_or in I1' as [I1'|[<-|[]]]; [exact (F c t' I1' E' L')|]. exfalso. apply L. congruence. }
  all: exfalso; apply NF; intros c t' I1' E' L'; apply in_app_or in I1' as [I1'|[<-|[]]]; [exact (F c t' I1' E' L')|congruence].
Qed.

Theorem C28_integer_correct_or_inverts : forall PD (src : @source F64 PD) calls ue zs,
  unit_ok ue -> history_points PD src calls = map (grid ue) zs -> integer_input zs ->
  let es := history_edges PD src calls in edges_apart zs es ->
  let poly := outer_contour PD src in let holes := hole_contours PD src calls in
  (forall c, In c (poly :: holes) -> 3 <= length c) -> holes_inside zs poly holes -> loose_points_allowed zs poly holes ->
  exists b, builder_of PD src calls = Done b /\
  forall dbg fuel, steps (length zs) <= fuel -> forall r cbs, observed dbg fuel (build PD b) = (r, cbs) ->
  (exists t ids, r = Done t /\ triangle_list_indices dbg PD t = Done ids /\ proper_cdt (length zs) (zat zs) es poly holes ids) \/
  (exists before cb after p q, cbs = before ++ cb :: after /\
     (forall cb', In cb' before -> ~ announces_inverted (c_points (build PD b)) cb') /\ announces_inverted (c_points (build PD b)) cb /\
     (In (p, q) es \/ In (q, p) es) /\ capped zs p q /\ exists evs, point_events (map cb_event before) = evs ++ [EvExitPoint q]).
Proof.
  intros PD src calls ue zs UB HP IN es EA poly holes L3 HN ST. destruct (int_builder PD src calls ue zs UB HP IN L3) as [b B]. exists b. split; [exact B|]. intro dbg.
  assert (NE : history_points PD src calls <> []) by (rewrite HP; destruct IN as (L & _); destruct zs; [cbn in L; lia|discriminate]).
  pose proof (i_plane PD src calls ue zs UB HP IN b B EA) as PI.
  pose proof (run_total_aux PD dbg src calls b B NE (i_proper PD src calls ue zs UB HP IN b B) (plane_planar PD src calls b F64_eq_not_lt F64_eq_sym B PI) (i_eps PD src calls ue zs UB HP IN b B)) as H. rewrite HP, map_length in H.
  intros fuel LE r cbs O. set (ps := c_points (build PD b)) in *.
  destruct (first_bad ps cbs) as [G|(before & cb & after & EQ & G1 & G2)].
  - left. destruct (H fuel LE r cbs O) as [K _]. destruct K as (F & t & ->); [left; apply good_fills; exact G|].
    destruct (C43_integer_finished_run PD dbg fuel src calls ue zs b t cbs UB HP IN B EA O F L3 HN ST) as (ids & H1 & H2). exists t, ids. auto.
  - right. exists before, cb, after. pose proof (good_fills _ _ G1) as F1.
    assert (NF : ~ fills_ccw ps (before ++ [cb])). { intro Q. apply fills_good in Q. rewrite rev_app_distr in Q. apply Forall_inv in Q. exact (G2 Q). }
    rewrite EQ in O.
    destruct (C22_first_inversion PD dbg fuel src calls b r before cb after B (i_proper PD src calls ue zs UB HP IN b B) (plane_planar PD src calls b F64_eq_not_lt F64_eq_sym B PI) (i_eps PD src calls ue zs UB HP IN b B) (i_fills PD src calls ue zs UB HP IN b B) O F1 NF) as (p & q & I' & CB & EV).
    exists p, q. split; [exact EQ|]. split. { intros c IC (t & E & L & Q). specialize (F1 c t IC E L). apply Zlt_not_le in F1. exact (F1 Q). }
    split; [exact (last_inverted ps before cb F1 NF)|].
    destruct (i_upper PD src calls ue zs UB HP IN b B p q I') as [IE _]. split; [exact IE|]. split; [|exact EV].
    exact (i_cap_of PD src calls ue zs UB HP IN b B p q I' CB).
Qed.
Print Assumptions C28_integer_correct_or_inverts.

(** the same for [Builder::new(poly).build()], on the callbacks and the index list *)
Theorem C28_integer_polygon_correct_or_inverts : forall zs, integer_input zs -> edges_apart zs (ring (length zs)) ->
  forall dbg fuel, steps (length zs) <= fuel ->
  (exists ids, indices64 dbg fuel zs [] [] = Done ids /\ proper_cdt (length zs) (zat zs) (ring (length zs)) (seq 0 (length zs)) [] ids) \/
  (exists before cb after p q c, cdt64 zs [] [] = Done c /\ snd (observed dbg fuel c) = before ++ cb :: after /\
     (forall cb', In cb' before -> ~ announces_inverted (c_points c) cb') /\ announces_inverted (c_points c) cb /\
     (In (p, q) (ring (length zs)) \/ In (q, p) (ring (length zs))) /\ capped zs p q /\ exists evs, point_events (map cb_event before) = evs ++ [EvExitPoint q]).
Proof.
  intros zs IN EA dbg fuel LE.
  assert (LS : length (fst (unit_src zs)) = length zs) by (apply map_length).
  set (calls := [CSteiners unit (unit_src [])] : list (@call F64 unit)).
  assert (HE : history_edges unit (unit_src zs) calls = ring (length zs)).
  { unfold history_edges. rewrite LS. cbn [calls calls_edges call_edges app]. rewrite app_nil_r. reflexivity. }
  assert (OC : outer_contour unit (unit_src zs) = seq 0 (length zs)) by (unfold outer_contour; rewrite LS; reflexivity).
  assert (HH : history_points unit (unit_src zs) calls = map pt64 zs) by (unfold history_points; cbn; apply app_nil_r).
  assert (EA' : edges_apart zs (history_edges unit (unit_src zs) calls)) by (rewrite HE; exact EA).
  destruct (C28_integer_correct_or_inverts unit (unit_src zs) calls 0%Z zs unit_0 HH IN EA') as (b & B & H).
  - intros c [<-|[]]. rewrite OC, seq_length. apply IN.
  - intros k p h _ [].
  - intros v Lv Nv. exfalso. apply (Nv _ (or_introl eq_refl)). rewrite OC. apply in_seq. lia.
  - assert (C64 : cdt64 zs [] [] = Done (build unit b)).
    { unfold cdt64. cbn [map]. unfold builder_of in B. destruct (builder_new unit (unit_src zs)) as [b0| | |]; try discriminate. cbn [rbind calls apply_calls apply_call] in B. injection B as <-. reflexivity. }
    destruct (observed dbg fuel (build unit b)) as [r cbs] eqn:O.
    destruct (H dbg fuel LE r cbs O) as [(t & ids & -> & H1 & H2)|(before & cb & after & p & q & K1 & K2 & K3 & K4 & K5 & K6)].
    + left. exists ids. rewrite HE, OC in H2. split; [|exact H2]. unfold indices64, triangulate64. rewrite C64. cbn [rbind].
      assert (T : triangulate dbg unit fuel (build unit b) = Done t).
      { unfold observed, triangulate_with_observer in O. unfold triangulate, triangulate_with_observer. destruct (run dbg fuel (c_points (build unit b))) as [r ctx]. injection O as O _. exact O. }
      rewrite T. cbn [rbind]. exact H1.
    + right. rewrite HE in K4. exists before, cb, after, p, q, (build unit b). rewrite O. cbn [snd].
      split; [exact C64|]. split; [exact K1|]. split; [exact K2|]. split; [exact K3|]. split; [exact K4|]. split; [exact K5|exact K6].
Qed.
Print Assumptions C28_integer_polygon_correct_or_inverts.

(** both alternatives occur: the polygon of PropsLoop.v satisfies the hypotheses, and its run, which never ends, announces such a triangle *)
Example outcome_loop : forall fuel, steps (length w_loop) <= fuel -> exists before cb after p q c, cdt64 w_loop [] [] = Done c /\
  snd (observed false fuel c) = before ++ cb :: after /\ announces_inverted (c_points c) cb /\ capped w_loop p q.
Proof.
  assert (IN : integer_input w_loop) by (apply integer_inputb_ok; vm_compute; reflexivity).
  assert (EA : edges_apart w_loop (ring (length w_loop))) by (apply edges_apartb_ok; vm_compute; reflexivity).
  intros fuel LE.
  destruct (C28_integer_polygon_correct_or_inverts w_loop IN EA false fuel LE) as [(ids & H1 & _)|(before & cb & after & p & q & c & K1 & K2 & K3 & K4 & K5 & K6 & K7)].
  - exfalso. unfold indices64 in H1. rewrite (proj2 C28_never_returns fuel) in H1. discriminate H1.
  - exists before, cb, after, p, q, c. auto.
Qed.
Example outcome_star : forall fuel, steps 8 <= fuel -> exists ids, indices64 true fuel star [] [] = Done ids /\ proper_cdt 8 (zat star) (ring 8) (seq 0 8) [] ids.
Proof.
  destruct star_ok as (H1 & H2 & H3 & _). intros fuel LE.
  destruct (C28_integer_polygon_correct_or_inverts star H1 H2 true fuel LE) as [K|(before & cb & after & p & q & c & _ & _ & _ & _ & K5 & K6 & _)]; [exact K|]. destruct (H3 p q K5 K6).
Qed.
