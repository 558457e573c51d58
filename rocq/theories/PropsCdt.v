(** * PropsCdt: C43, C44, C45 - what the returned list is as a triangulation

    C43 it is constrained Delaunay in the global sense, C44 it is conforming and its border is the input,
    C45 no input point inside the region is lost.  Points of the plane are written p/k, k > 0. *)
From Coq Require Import List Arith Bool Lia ZArith Permutation.
From Verif Require Import Base Num Shape ShapeSpec Utils Points Triangles Front Sweeper Cdt F64 Lists Monad BuilderSpec Exact F64Exact FloatLaws Spec PropsBuilder PropsTrace Flood PropsSafe
  FrontSpec Geom Mesh Rotate Setup Legal Boundary Chain FrontInv Good Init Winding Cover CoverRun Disc Stokes Region Inside FanAll Screen Cone Planar MeshStart PropsMesh PropsCover PropsMarks PropsRegion PropsTri Delaunay.
From Verif Require History.
Import History(call, CHole, CHoles, CSteiner, CSteiners, builder_of, call_points, history_points, holes_edges, call_edges, calls_edges, history_edges).
Import ListNotations.
Local Open Scope Z_scope.

(** ** the mesh behind the returned list *)
Section Cells.
Context {A : Arith} {E : Exact A}.

(** [ts]: the mesh at the end; [inR]: the triangles returned; [es]: the edges of the input *)
Record cells (ps : Points) (es : list (nat * nat)) (ts : TriangleStore) (inR : nat -> Prop) : Prop := {
  ce_mesh : mesh (npts ps) (zc ps) ts;
  ce_uniq : forall P Q, (fst P < length ts)%nat -> (fst Q < length ts)%nat -> pedge ts P = pedge ts Q -> P = Q;
  ce_twin : forall P Q, (fst P < length ts)%nat -> (fst Q < length ts)%nat -> pedge ts Q = swp (pedge ts P) -> ppaired ts P Q;
  ce_empty : forall t i c k, (t < length ts)%nat -> (c < length ts)%nat -> ~ strictly_inside (zc ps (tv ts t i)) (zc ps (tv ts t (nxt i))) (zc ps (tv ts t (prv i))) (zc ps (tv ts c k));
  ce_range : forall t, inR t -> (t < length ts)%nat;
  ce_marks : forall P, (fst P < length ts)%nat -> ptc ts P = true <-> In (pedge ts P) es \/ In (swp (pedge ts P)) es;
  ce_sides : forall e, In e es -> is_edge ts e;
  (* across an unmarked edge *)
  ce_open : forall P, inR (fst P) -> ptc ts P = false -> exists Q, ppaired ts P Q /\ inR (fst Q) /\ inc (zc ps) ts P Q <= 0;
  (* at a marked edge *)
  ce_one : forall P, (fst P < length ts)%nat -> ptc ts P = true -> (ptn ts P = None -> inR (fst P)) /\ forall Q, ppaired ts P Q -> (inR (fst P) <-> ~ inR (fst Q))
}.
Lemma is_edge_swp ts e : is_edge ts e -> is_edge ts (swp e).
Proof. intros (P & L & H). exists P. split; auto. destruct e as [x y]. unfold swp in *. cbn [fst snd] in *. tauto. Qed.

Lemma cells_of PD dbg fuel src calls (b : Builder PD) t cbs : eq_not_lt -> History.eq_sym ->
  builder_of PD src calls = Done b -> let ps := c_points (build PD b) in
  proper ps -> plane_input ps (history_edges PD src calls) -> observed dbg fuel (build PD b) = (Done t, cbs) -> fills_ccw ps cbs ->
  let poly := outer_contour PD src in let holes := hole_contours PD src calls in
  (forall c, In c (poly :: holes) -> (3 <= length c)%nat) -> holes_nested ps poly holes -> steiner_allowed PD ps src calls ->
  exists ts, cells ps (history_edges PD src calls) ts (fun i => In (Some i) (tr_result t)) /\
    length ts = length (tr_triangles t) /\ forall i k, tv (tr_triangles t) i k = tv ts i k.
Proof.
  intros L' Sy B ps PP PI O F poly holes L3 NE ST.
  pose proof (scan_exact_sound _ (pi_scan _ _ PI)) as SC. pose proof (pi_col _ _ PI) as NC.
  pose proof (C41_result_marks_input PD dbg fuel src calls b t cbs L' Sy B PP PI O F) as [ME MC].
  set (ts := tr_triangles t) in *.
  destruct (C10_result_distinct PD dbg fuel src calls b t cbs B O) as [RD RR].
  destruct (C11_result_is_region PD dbg fuel src calls b t cbs B O) as (pre & cbD & cbF & EC & EvD & EvF & _ & _ & _ & MK & FAN).
  assert (CL : claim ps cbD (rev pre)).
  { apply (claim_at PD dbg fuel src calls b (Done t) pre cbD [cbF] B PP SC); [rewrite <- EC; exact O|].
    intros cb i IN. apply F. rewrite EC. apply in_or_app. apply in_app_or in IN as [IN|[<-|[]]]; [left; auto|right; left; auto]. }
  destruct (marked_alike _ _ _ MK) as [LEN ALIKE]. fold ts in LEN, ALIKE.
  set (ts0 := cb_tris cbD) in *. set (ns := nodes (cb_front cbD)) in *.
  pose proof (c_mesh _ _ _ CL) as M. fold ts0 in M. pose proof (c_fo _ _ _ CL) as FO. pose proof (c_exact _ _ _ CL) as EX. fold ts0 in EX.
  destruct (c_outer _ _ _ CL) as [BD DB]; [rewrite EvD; reflexivity|]. fold ts0 ns in BD, DB. pose proof (proj1 FO) as CH. fold ns in CH.
  destruct (front_third ps PP ts0 ns M CH BD) as (e & e' & a & N1 & N2 & TR).
  rewrite N1, TR in FAN. assert (AD : adjacent ns e e') by (exists 1%nat; auto). destruct FAN as (seed & FA & RES).
  destruct (contours_range PD src calls) as [ND RG]. fold poly holes in ND, RG.
  assert (NP : (length (history_points PD src calls) <= npts ps)%nat).
  { pose proof (History.builder_of_points _ _ _ _ B) as (B1 & _ & _). rewrite <- B1. unfold npts, ps, build, c_points, pb_build. cbn. rewrite app_length. lia. }
  assert (RG' : forall c v, In c (poly :: holes) -> In v c -> (v < npts ps)%nat) by (intros c v Ic Iv; specialize (RG c v Ic Iv); lia).
  assert (EDG : forall ed, In ed (history_edges PD src calls) <-> exists c, In c (poly :: holes) /\ In ed (Stokes.cyc c)).
  { intro ed. rewrite <- contours_edges, in_flat_map. reflexivity. }
  assert (PE : forall P, pedge ts0 P = side ts (fst P) (snd P)).
  { intro P. unfold pedge, side. rewrite !(proj1 (ALIKE _ _)). reflexivity. }
  assert (SIDES : forall c ed, In c (poly :: holes) -> In ed (Stokes.cyc c) -> is_edge ts0 ed).
  { intros c ed Ic Ie. destruct (ME ed) as (u & i & Lu & H); [apply EDG; eauto|]. exists (u, i). rewrite PE. cbn [fst snd]. split; [lia|exact H]. }
  assert (MARKS : forall P, (fst P < length ts0)%nat -> ptc ts0 P = true <-> exists c, In c (poly :: holes) /\ on c (pedge ts0 P)).
  { intros P LP. unfold ptc. rewrite <- (proj2 (ALIKE (fst P) (snd P))). rewrite (MC (fst P) (snd P)) by lia. rewrite !EDG, PE. unfold on. split.
    - intros [(c & Ic & H)|(c & Ic & H)]; exists c; auto.
    - intros (c & Ic & [H|H]); [left|right]; eauto. }
  pose proof (fan_seed_spec ps PP ts0 ns M CH BD EX poly holes ND L3 RG' SIDES MARKS e e' a seed AD TR FA) as SEED.
  destruct seed as [s0|].
  2:{ exfalso. destruct (ch_first _ _ CH) as (e0 & Ef & Hf).
      assert (HD : ps_head ps = length (history_points PD src calls)) by (pose proof (History.builder_of_points _ _ _ _ B) as (B1 & _ & _); rewrite <- B1; reflexivity).
      assert (RH : forall c v, In c (poly :: holes) -> In v c -> (v < ps_head ps)%nat) by (intros c v Ic Iv; rewrite HD; apply (RG c v Ic Iv)).
      assert (AD0 : adjacent ns e0 e) by (exists 0%nat; auto).
      destruct (seed_found ps PP ts0 ns M CH BD EX poly holes ND L3 RH SIDES MARKS e0 e e' a AD0 AD TR Hf None FA) as [Q1|Q1]; [|congruence].
      destruct (seed_winds ps PP ts0 ns M CH BD EX poly holes ND L3 RH SIDES MARKS NC e0 e e' a AD0 AD TR Hf None FA) as [Q2|Q2]; [congruence|].
      pose proof (p_in ps PP ns CH e0 e e' AD0 AD) as PI'.
      destruct (ST (en_pid e)) as [Q3|(q & Lq & X1 & X2)]; [rewrite <- HD; exact PI'|exact Q1|apply Q3, Q2; left; reflexivity|].
      rewrite <- HD in Lq. apply (first_node_unscreened ps PP ts0 ns M CH BD e0 e q AD0 Hf PI' Lq); [|exact X1|exact X2].
      destruct (run_vertices PD dbg fuel src calls b t cbs B PP SC O (fills_good _ _ F) q Lq) as (c & k & Lc & Vc). exists c, k. rewrite <- (proj1 (ALIKE c k)). split; [fold ts in Lc; lia|exact Vc]. }
  destruct SEED as (Ls & c0 & Ic0 & W0 & WN).
  assert (LR : forall i, In i (valid (tr_result t)) <-> region ts0 s0 i).
  { intro i. rewrite valid_in, RES. split; [intros (s & i' & Q1 & Q2 & H); injection Q1 as <-; injection Q2 as <-; exact H|intro H; exists s0, i; auto]. }
  exists ts0. split; [|split; [symmetry; exact LEN|intros i k; apply ALIKE]].
  assert (RL : forall i, In i (valid (tr_result t)) -> (i < length ts0)%nat).
  { intros i Ii. apply valid_in in Ii. destruct (RR _ Ii) as (i' & Q & Li). injection Q as <-. fold ts in Li. lia. }
  assert (MKS : forall P, (fst P < length ts0)%nat -> ptc ts0 P = true <-> In (pedge ts0 P) (history_edges PD src calls) \/ In (swp (pedge ts0 P)) (history_edges PD src calls)).
  { intros P LP. rewrite (MARKS P LP), !EDG. unfold on. split.
    - intros (c & Ic & [H|H]); [left|right]; eauto.
    - intros [(c & Ic & H)|(c & Ic & H)]; exists c; auto. }
  constructor.
  - exact M.
  - intros P Q LP LQ H. apply (edge_unique ps PP ts0 (cb_front cbD) [] M FO BD P Q LP LQ H).
  - intros P Q LP LQ H. apply (edge_twin ps PP ts0 (cb_front cbD) [] M FO BD P Q LP LQ H).
  - intros u i c k Lu Lc (H1 & H2 & H3). apply (no_vertex_inside ps PP ts0 (cb_front cbD) [] M FO BD u i c k Lu Lc). split; auto.
  - intros i Ii. apply RL, valid_in, Ii.
  - exact MKS.
  - intros ed Ie. apply EDG in Ie as (c & Ic & Ie). eapply SIDES; eauto.
  - intros P IP TC. apply valid_in in IP. pose proof (RL _ IP) as LP.
    destruct (ptn ts0 P) as [u|] eqn:Qn.
    2:{ exfalso. destruct (rg_open ps PP ts0 ns M CH BD EX poly holes ND L3 RG' SIDES MARKS (valid (tr_result t)) s0 c0 LR Ls Ic0 W0 P LP Qn) as (c & Ic & H); [apply rg_in; exact IP|].
        assert (ptc ts0 P = true) by (apply MARKS; eauto). congruence. }
    destruct (m_adj M (fst P) (snd P) u LP Qn) as [j PR]. exists (u, j). split; [exact PR|].
    assert (PR' : ppaired ts0 P (u, j)) by exact PR.
    split. { apply valid_in, LR. apply LR in IP. eapply region_step; [exact IP|]. apply (step_open ts0 P (u, j) PR' TC). }
    destruct (Z_lt_le_dec 0 (inc (zc ps) ts0 P (u, j))) as [G|G]; auto. exfalso.
    assert (TC' : ptc ts0 (u, j) = false).
    { destruct (ptc ts0 (u, j)) eqn:T; auto. exfalso. apply (MKS (u, j)) in T; [|apply PR]. rewrite (twin_edge ts0 P (u, j) PR') in T.
      assert (ptc ts0 P = true); [|congruence]. apply (MKS P LP). destruct (pedge ts0 P) as [x y]. unfold swp in *. cbn [fst snd] in T. tauto. }
    destruct (DB P (u, j)) as [[]|[]]. repeat (split; [assumption|]). assumption.
  - intros P LP TC. apply (MARKS P LP) in TC as (c & Ic & OC).
    assert (KC : kap c (pedge ts0 P) = 1 \/ kap c (pedge ts0 P) = -1) by (apply (on_kap (poly :: holes) ND L3); auto).
    assert (KO : forall c', In c' (poly :: holes) -> c' <> c -> kap c' (pedge ts0 P) = 0).
    { intros c' Ic' Ne. destruct (Z.eq_dec (kap c' (pedge ts0 P)) 0) as [H|H]; auto. exfalso. apply Ne. apply kap_on in H. apply (on_own (poly :: holes) ND c' c (pedge ts0 P)); auto. }
    pose proof (fun c Ic => all_bounds ps PP ts0 ns M CH BD EX poly holes ND L3 RG' SIDES c Ic P LP) as AB.
    pose proof (fun i Li => inside_iff ps PP ts0 ns M CH BD EX poly holes ND L3 RG' SIDES MARKS (valid (tr_result t)) s0 c0 LR Ls Ic0 W0 WN NE i Li) as II.
    pose proof (nest_W ps ts0 poly holes NE) as NW.
    assert (PNH : ~ In poly holes) by (apply (poly_not_hole poly holes ND L3)).
    assert (HNP : forall h, In h holes -> h <> poly) by (intros h Ih ->; contradiction).
    split.
    + intro QN. apply valid_in. apply (II _ LP).
      assert (WE : forall c', In c' (poly :: holes) -> W ps ts0 c' (fst P) = kap c' (pedge ts0 P)) by (intros c' Ic'; symmetry; apply (proj1 (AB c' Ic') QN)).
      destruct Ic as [<-|Ih].
      * split; [rewrite WE by (left; auto); lia|]. intros h Ih. rewrite WE by (right; auto). apply KO; [right; auto|auto].
      * exfalso. destruct (NW (fst P) c Ih) as [H _]; [rewrite WE by (right; auto); lia|]. apply H. rewrite WE by (left; auto). apply KO; [left; auto|]. intro Q. apply (HNP c Ih). auto.
    + intros Q PQ. pose proof PQ as (_ & LQ & _). rewrite <- !valid_in, (II _ LP), (II _ LQ).
      assert (WE : forall c', In c' (poly :: holes) -> W ps ts0 c' (fst P) - W ps ts0 c' (fst Q) = kap c' (pedge ts0 P)) by (intros c' Ic'; symmetry; apply (proj2 (AB c' Ic') Q PQ)).
      assert (J : exists s, (s = 1 \/ s = -1) /\ (forall t, (t < length ts0)%nat -> W ps ts0 c t = 0 \/ W ps ts0 c t = s)).
      { destruct (one_jordan ps PP ts0 ns M CH BD EX c) as (s & S1 & S2 & _); [apply (concat_nodup (poly :: holes)); auto|auto|intros; eapply RG'; eauto|intros; eapply SIDES; eauto|]. exists s. auto. }
      destruct J as (s & S1 & S2). pose proof (S2 _ LP) as JP. pose proof (S2 _ LQ) as JQ. pose proof (WE c Ic) as WC.
      destruct Ic as [<-|Ih].
      * assert (HE : forall h, In h holes -> W ps ts0 h (fst P) = W ps ts0 h (fst Q)).
        { intros h Ih. pose proof (WE h (or_intror Ih)) as H. rewrite KO in H by (auto; right; auto). lia. }
        assert (ZP : W ps ts0 poly (fst P) <> 0 -> W ps ts0 poly (fst Q) = 0) by (clear - JP JQ WC KC S1; lia).
        assert (ZQ : W ps ts0 poly (fst P) = 0 -> W ps ts0 poly (fst Q) <> 0) by (clear - JP JQ WC KC S1; lia).
        split.
        { intros [H _] [H' _]. apply H'. auto. }
        { intro H. destruct (Z.eq_dec (W ps ts0 poly (fst P)) 0) as [Z|Z].
          - exfalso. apply H. split; [auto|]. intros h Ih. rewrite <- (HE h Ih). destruct (Z.eq_dec (W ps ts0 h (fst P)) 0) as [|Nh]; auto. destruct (NW (fst P) h Ih Nh) as [H' _]. contradiction.
          - split; auto. intros h Ih. destruct (Z.eq_dec (W ps ts0 h (fst P)) 0) as [|Nh]; auto. rewrite (HE h Ih) in Nh. destruct (NW (fst Q) h Ih Nh) as [H' _]. elim H'. auto. }
      * assert (HE : forall c', In c' (poly :: holes) -> c' <> c -> W ps ts0 c' (fst P) = W ps ts0 c' (fst Q)).
        { intros h Ih' Ne. pose proof (WE h Ih') as H. rewrite KO in H by auto. lia. }
        assert (PC : poly <> c) by (intro Q'; apply (HNP c Ih); auto).
        assert (X : forall T U, W ps ts0 c T <> 0 -> W ps ts0 c U = 0 -> (forall c', In c' (poly :: holes) -> c' <> c -> W ps ts0 c' T = W ps ts0 c' U) ->
          W ps ts0 poly U <> 0 /\ forall h, In h holes -> W ps ts0 h U = 0).
        { intros T U HT HU HEQ. destruct (NW T c Ih HT) as [H1 H2]. split; [rewrite <- HEQ; [exact H1|left; auto|exact PC]|].
          intros h Ih'. destruct (list_eq_dec Nat.eq_dec h c) as [->|Ne]; auto. rewrite <- HEQ by (auto; right; auto). auto. }
        assert (ZZ : (W ps ts0 c (fst P) <> 0 /\ W ps ts0 c (fst Q) = 0) \/ (W ps ts0 c (fst P) = 0 /\ W ps ts0 c (fst Q) <> 0)) by (clear - JP JQ WC KC S1; lia).
        destruct ZZ as [[Z1 Z2]|[Z1 Z2]].
        { pose proof (X _ _ Z1 Z2 HE) as Y. split; [intros [_ H]; elim Z1; auto|intro H; contradiction]. }
        { pose proof (X _ _ Z2 Z1 (fun c' I' Ne => eq_sym (HE c' I' Ne))) as Y. split; [intros _ [_ H]; apply Z2; auto|intros _; exact Y]. }
Qed.
End Cells.

(** ** moving p a little makes it generic and keeps every strict sign *)
Definition lin (c : Z * zpt) (m : Z) (d : zpt) : Z := m * fst c + fst (snd c) * fst d + snd (snd c) * snd d.
Lemma small_step m a b : Z.abs b < m -> (0 < a -> 0 < m * a + b) /\ (a < 0 -> m * a + b < 0).
Proof.
  intro H. split; intro Ha.
  - assert (m * 1 <= m * a) by (apply Z.mul_le_mono_nonneg_l; lia). lia.
  - assert (m * a <= m * (-1)) by (apply Z.mul_le_mono_nonneg_l; lia). lia.
Qed.
Lemma perturb (l : list (Z * zpt)) : exists m d, 0 < m /\ forall c, In c l -> (0 < fst c -> 0 < lin c m d) /\ (fst c < 0 -> lin c m d < 0) /\ (snd c <> (0, 0) -> lin c m d <> 0).
Proof.
  assert (T : forall f : Z * zpt -> Z, exists s, 0 <= s /\ forall c, In c l -> Z.abs (f c) <= s).
  { clear. intro f. induction l as [|c l (s & S1 & S2)]; [exists 0; split; [lia|intros c []]|]. exists (s + Z.abs (f c)). split; [lia|]. intros c' [<-|I']; [lia|]. specialize (S2 c' I'). lia. }
  destruct (T (fun c => fst (snd c))) as (D0 & DP & DB). set (D := 1 + D0). destruct (T (fun c => fst (snd c) + snd (snd c) * D)) as (m0 & MP & MB). set (m := 1 + m0).
  exists m, (1, D). split; [unfold m; lia|]. intros c Ic. specialize (DB c Ic). specialize (MB c Ic). cbv beta in DB, MB.
  assert (D1 : Z.abs (fst (snd c)) < D) by (unfold D; lia). assert (M1 : Z.abs (fst (snd c) + snd (snd c) * D) < m) by (unfold m; lia). clearbody D m.
  unfold lin. cbn [fst snd]. destruct c as [a [x y]]. cbn [fst snd] in *. replace (m * a + x * 1 + y * D) with (m * a + (x + y * D)) by ring.
  destruct (small_step m a (x + y * D) M1) as [S1 S2]. split; [exact S1|]. split; [exact S2|].
  intro Ne. destruct (Z.eq_dec a 0) as [->|Na]; [|destruct (Z_lt_le_dec 0 a) as [Q|Q]; [specialize (S1 Q)|specialize (S2 ltac:(lia))]; lia].
  destruct (Z.eq_dec y 0) as [->|Ny]; [|destruct (small_step D y x D1) as [T1 T2]; destruct (Z_lt_le_dec 0 y) as [Q|Q]; [specialize (T1 Q)|specialize (T2 ltac:(lia))]; lia].
  rewrite Z.mul_0_l, Z.add_0_r, Z.mul_0_r. cbn. intros ->. apply Ne. reflexivity.
Qed.
Lemma moved_orient m p d a b : orient (m * fst p + fst d, m * snd p + snd d) (scaled m a) (scaled m b) = m * lin (orient p a b, (snd a - snd b, fst b - fst a)) m d.
Proof. destruct p, d, a, b. unfold lin, scaled. zpts. cbn [fst snd]. ring. Qed.
Lemma sign_mul m x : 0 < m -> (0 < m * x <-> 0 < x) /\ (m * x < 0 <-> x < 0).
Proof.
  intro H. assert (U : 0 < x -> 0 < m * x) by (intro; apply Z.mul_pos_pos; auto). assert (V : x < 0 -> m * x < 0) by (intro; apply Z.mul_pos_neg; auto).
  assert (W : x = 0 -> m * x = 0) by (intros ->; ring). destruct (Z_lt_le_dec 0 x), (Z_lt_le_dec x 0); lia.
Qed.
Lemma generic_near (z : nat -> zpt) n p : (forall a b, (a < n)%nat -> (b < n)%nat -> a <> b -> z a <> z b) ->
  exists m q, 0 < m /\ forall a b, (a < n)%nat -> (b < n)%nat ->
    (0 < orient p (z a) (z b) -> 0 < orient q (scaled m (z a)) (scaled m (z b))) /\
    (orient p (z a) (z b) < 0 -> orient q (scaled m (z a)) (scaled m (z b)) < 0) /\
    (a <> b -> orient q (scaled m (z a)) (scaled m (z b)) <> 0).
Proof.
  intro DI. set (cn := fun ab : nat * nat => (orient p (z (fst ab)) (z (snd ab)), (snd (z (fst ab)) - snd (z (snd ab)), fst (z (snd ab)) - fst (z (fst ab))))).
  destruct (perturb (map cn (list_prod (seq 0 n) (seq 0 n)))) as (m & d & M & H). exists m, (m * fst p + fst d, m * snd p + snd d). split; auto.
  intros a b La Lb. assert (I' : In (cn (a, b)) (map cn (list_prod (seq 0 n) (seq 0 n)))) by (apply in_map, in_prod; apply in_seq; lia).
  destruct (H _ I') as (H1 & H2 & H3). rewrite moved_orient. unfold cn in *. cbn [fst snd] in *.
  destruct (sign_mul m (lin (orient p (z a) (z b), (snd (z a) - snd (z b), fst (z b) - fst (z a))) m d) M) as [S1 S2].
  split; [intro; apply S1; auto|]. split; [intro; apply S2; auto|].
  intro Ne. assert (X : lin (orient p (z a) (z b), (snd (z a) - snd (z b), fst (z b) - fst (z a))) m d <> 0).
  { apply H3. intro Q. injection Q as Q1 Q2. apply (DI a b La Lb Ne). destruct (z a), (z b). cbn [fst snd] in *. f_equal; lia. }
  intro Q. apply Z.mul_eq_0 in Q as [Q|Q]; [lia|contradiction].
Qed.

(** ** visibility *)
(** the closed segments xy and pq meet, or all four points are on one line *)
Definition touches (x y p q : zpt) : Prop := orient x y p * orient x y q <= 0 /\ orient p q x * orient p q y <= 0.
(** no edge that does not end at v touches the segment from p/k to the point v *)
Definition visible (z : nat -> zpt) (es : list (nat * nat)) (v : nat) (k : Z) (p : zpt) : Prop :=
  forall x y, In (x, y) es -> x <> v -> y <> v -> ~ touches (scaled k (z x)) (scaled k (z y)) p (scaled k (z v)).
(** constrained Delaunay: the circumcircle of a triangle has no input point strictly inside that can be seen from the inside of the triangle *)
Definition constrained_delaunay (n : nat) (z : nat -> zpt) (es : list (nat * nat)) (ids : list nat) : Prop :=
  forall a b c v k p, In (a, b, c) (triples ids) -> (v < n)%nat -> 0 < k -> point_in z (a, b, c) k p -> visible z es v k p ->
    incircle (z a) (z b) (z c) (z v) <= 0.

Lemma incircle_scaled k a b c d : incircle (scaled k a) (scaled k b) (scaled k c) (scaled k d) = k * k * (k * k) * incircle a b c d.
Proof. destruct a, b, c, d. unfold scaled, incircle, incircle_det. cbn [fst snd]. ring. Qed.
Lemma scale_nonpos k x : 0 < k -> (k * k * (k * k) * x <= 0 <-> x <= 0).
Proof.
  intro K. assert (K2 : 0 < k * k) by (apply Z.mul_pos_pos; auto). assert (K4 : 0 < k * k * (k * k)) by (apply Z.mul_pos_pos; auto).
  destruct (sign_mul (k * k * (k * k)) x K4) as [[S1 S2] _]. split; intro H; [destruct (Z_lt_le_dec 0 x) as [Q|Q]; auto; specialize (S2 Q); lia|].
  destruct (Z_lt_le_dec 0 (k * k * (k * k) * x)) as [Q|Q]; auto. specialize (S1 Q). lia.
Qed.
Lemma scale_sign k x : 0 < k -> (0 < k * k * x <-> 0 < x) /\ (k * k * x < 0 <-> x < 0).
Proof. intro K. apply sign_mul, Z.mul_pos_pos; auto. Qed.
Lemma inside_scaled k a b c d : 0 < k -> strictly_inside (scaled k a) (scaled k b) (scaled k c) (scaled k d) <-> strictly_inside a b c d.
Proof. intro K. unfold strictly_inside. rewrite !orient_scaled, !(proj1 (scale_sign k _ K)). reflexivity. Qed.

Lemma scaled_inj k a b : 0 < k -> scaled k a = scaled k b -> a = b.
Proof. intros K Q. destruct a, b. unfold scaled in Q. cbn [fst snd] in Q. injection Q as Q1 Q2. apply Z.mul_reg_l in Q1, Q2; [|lia..]. congruence. Qed.

Section Cdt.
Context {A : Arith} {E : Exact A}.
Variables (ps : Points) (es : list (nat * nat)) (ts : TriangleStore) (inR : nat -> Prop) (n : nat).
Hypothesis CE : cells ps es ts inR.
Hypothesis NC : nocol ps.
Hypothesis LN : (n + 2 <= npts ps)%nat.
Hypothesis CO : forall t i, inR t -> (tv ts t i < n)%nat.
Notation z := (zc ps).

Lemma z_inj a b : (a < n)%nat -> (b < n)%nat -> a <> b -> z a <> z b.
Proof using NC LN.
  intros La Lb Ne Q. apply (NC a b n); try lia. rewrite Q. generalize (z b), (z n). clear. intros [] []. zpts. ring.
Qed.
Lemma cells_delaunay t v k p : inR t -> vertex ts v -> (v < n)%nat -> 0 < k ->
  strictly_inside (scaled k (z (tv ts t I0))) (scaled k (z (tv ts t I1))) (scaled k (z (tv ts t I2))) p -> visible z es v k p ->
  incircle (z (tv ts t I0)) (z (tv ts t I1)) (z (tv ts t I2)) (z v) <= 0.
Proof using CE NC LN CO.
  intros Rt (cv & kv & Lcv & Vv) Lv K IN VIS.
  destruct (generic_near (fun v => scaled k (z v)) n p) as (m & q & Hm & G).
  { intros a b La Lb Ne Q. apply (z_inj a b La Lb Ne). eapply scaled_inj; eauto. }
  set (zz := fun v => scaled m (scaled k (z v))).
  pose proof (ce_mesh _ _ _ _ CE) as M. pose proof (mesh_scaled _ _ _ _ Hm (mesh_scaled _ _ _ _ K M)) as M'. change (mesh (npts ps) zz ts) in M'.
  assert (OS : forall a b c, orient (zz a) (zz b) (zz c) = m * m * (k * k * orient (z a) (z b) (z c))) by (intros; unfold zz; rewrite !orient_scaled; reflexivity).
  assert (IS : forall a b c d, incircle (zz a) (zz b) (zz c) (zz d) = m * m * (m * m) * (k * k * (k * k) * incircle (z a) (z b) (z c) (z d))) by (intros; unfold zz; rewrite !incircle_scaled; reflexivity).
  assert (DI : forall u i, inR u -> tv ts u (nxt i) <> tv ts u (prv i)).
  { intros u i Ru. pose proof (proj1 (tccw_at i) (m_ccw M u (ce_range _ _ _ _ CE u Ru))) as Cu. apply ccw3_distinct in Cu. tauto. }
  assert (GD : incircle (zz (tv ts t I0)) (zz (tv ts t I1)) (zz (tv ts t I2)) (zz v) <= 0).
  { apply (globally_delaunay (npts ps) zz ts M' inR q v (ce_range _ _ _ _ CE)); auto.
    - intros u i Ru Ne. apply (G v (tv ts u i)); auto.
    - intros u i Ru N1 N2. rewrite OS. pose proof (CO u (nxt i) Ru) as L1. pose proof (CO u (prv i) Ru) as L2.
      assert (X : orient (z (tv ts u (nxt i))) (z (tv ts u (prv i))) (z v) <> 0) by (apply NC; auto; lia).
      destruct (scale_sign k (orient (z (tv ts u (nxt i))) (z (tv ts u (prv i))) (z v)) K) as [A1 A2]. destruct (scale_sign m (k * k * orient (z (tv ts u (nxt i))) (z (tv ts u (prv i))) (z v)) Hm) as [B1 B2].
      destruct (Z_lt_le_dec 0 (orient (z (tv ts u (nxt i))) (z (tv ts u (prv i))) (z v))) as [Q|Q]; [apply A1, B1 in Q; lia|].
      assert (Q' : orient (z (tv ts u (nxt i))) (z (tv ts u (prv i))) (z v) < 0) by (clear - Q X; lia). apply A2, B2 in Q'. lia.
    - intros u i Ru S. unfold zz in S. rewrite !inside_scaled in S by auto. rewrite <- Vv in S. exact (ce_empty _ _ _ _ CE u i cv kv (ce_range _ _ _ _ CE u Ru) Lcv S).
    - intros u i Ru (A1 & A2 & A3 & A4). pose proof (ce_range _ _ _ _ CE u Ru) as Lu.
      set (x := tv ts u (nxt i)) in *. set (y := tv ts u (prv i)) in *.
      assert (Lx : (x < n)%nat) by (apply CO; auto). assert (Ly : (y < n)%nat) by (apply CO; auto).
      assert (Nx : x <> v) by (intros Q; rewrite Q, not_v in A1; lia). assert (Ny : y <> v) by (intros Q; rewrite Q, not_v in A2; lia).
      assert (B : ~ touches (scaled k (z x)) (scaled k (z y)) p (scaled k (z v)) -> False).
      { intro T. apply T. rewrite OS in A4. apply (scale_sign m _ Hm) in A4. split.
        - assert (Q : 0 <= orient (scaled k (z x)) (scaled k (z y)) p).
          { destruct (Z_lt_le_dec (orient (scaled k (z x)) (scaled k (z y)) p) 0) as [Q|Q]; auto. exfalso. rewrite orient_rot in Q. apply (G x y Lx Ly) in Q.
            unfold zz in A3. rewrite orient_rot in A3. lia. }
          rewrite orient_scaled. apply Z.mul_nonneg_nonpos; lia.
        - assert (Q1 : orient p (scaled k (z v)) (scaled k (z x)) <= 0).
          { destruct (Z_lt_le_dec 0 (orient p (scaled k (z v)) (scaled k (z x)))) as [Q|Q]; auto. exfalso. apply (G v x Lv Lx) in Q. unfold zz in A1. lia. }
          assert (Q2 : 0 <= orient p (scaled k (z v)) (scaled k (z y))).
          { destruct (Z_lt_le_dec (orient p (scaled k (z v)) (scaled k (z y))) 0) as [Q|Q]; auto. exfalso. apply (G v y Lv Ly) in Q. unfold zz in A2. lia. }
          apply Z.mul_nonpos_nonneg; lia. }
      destruct (ptc ts (u, i)) eqn:TC.
      + exfalso. apply B. apply (ce_marks _ _ _ _ CE (u, i) Lu) in TC as [I'|I']; [apply (VIS x y I' Nx Ny)|].
        intros [T1 T2]. apply (VIS y x I' Ny Nx). split; [rewrite (orient_swap (scaled k (z x)) (scaled k (z y)) p), (orient_swap (scaled k (z x)) (scaled k (z y)) (scaled k (z v))); lia|lia].
      + destruct (ce_open _ _ _ _ CE (u, i) Ru TC) as ([w j] & PR & Rw & IC). exists w, j. split; [exact PR|]. split; [exact Rw|].
        rewrite IS. apply scale_nonpos; auto. apply scale_nonpos; auto.
    - destruct IN as (I1' & I2' & I3'). pose proof (CO t I0 Rt). pose proof (CO t I1 Rt). pose proof (CO t I2 Rt).
      unfold zz. split; [|split]; rewrite orient_rot; apply G; auto; rewrite <- orient_rot; assumption. }
  rewrite IS in GD. apply scale_nonpos in GD; auto. apply scale_nonpos in GD; auto.
Qed.
End Cdt.

(** ** the sides of the listed triangles *)
Definition sides (abc : nat * nat * nat) : list (nat * nat) := let '(a, b, c) := abc in [(a, b); (b, c); (c, a)].
(** x and y are joined by a side of the triangle *)
Definition joins (abc : nat * nat * nat) (x y : nat) : Prop := In (x, y) (sides abc) \/ In (y, x) (sides abc).
(** conforming: an input edge is a side of exactly one listed triangle; any other side of a listed triangle is a side
    of exactly one other, which has it in the opposite direction *)
Definition conforming (es : list (nat * nat)) (ids : list nat) : Prop :=
  let tris := triples ids in
  (forall x y, In (x, y) es -> exists i t, nth_error tris i = Some t /\ joins t x y /\ forall j u, nth_error tris j = Some u -> joins u x y -> j = i) /\
  (forall i t x y, nth_error tris i = Some t -> In (x, y) (sides t) -> ~ In (x, y) es -> ~ In (y, x) es ->
     exists j u, nth_error tris j = Some u /\ In (y, x) (sides u) /\ j <> i /\ forall j' u', nth_error tris j' = Some u' -> joins u' x y -> j' = i \/ j' = j).
Definition tri3 (ts : TriangleStore) (i : nat) : nat * nat * nat := (tv ts i I0, tv ts i I1, tv ts i I2).
Lemma sides_pedge ts i e : In e (sides (tri3 ts i)) <-> exists k, pedge ts (i, k) = e.
Proof.
  unfold sides, tri3, pedge. cbn [fst snd]. split.
  - intros [<-|[<-|[<-|[]]]]; [exists I2|exists I0|exists I1]; reflexivity.
  - intros [[] <-]; cbn [nxt prv In]; tauto.
Qed.
Lemma nth_of {X} (l : list X) x : In x l -> exists i, nth_error l i = Some x. Proof. apply In_nth_error. Qed.

Section Conf.
Context {A : Arith} {E : Exact A}.
Variables (ps : Points) (es : list (nat * nat)) (ts : TriangleStore) (l : list nat).
Hypothesis CE : cells ps es ts (fun i => In i l).
Hypothesis ND : NoDup l.

Lemma conforming_cells ids : triples ids = map (tri3 ts) l -> conforming es ids.
Proof using CE ND.
  intro TR. unfold conforming. rewrite TR. cbv zeta.
  assert (RL : forall i, In i l -> (i < length ts)%nat) by apply (ce_range _ _ _ _ CE).
  assert (NTH : forall i t, nth_error (map (tri3 ts) l) i = Some t -> exists a, nth_error l i = Some a /\ t = tri3 ts a).
  { intros i t H. rewrite nth_error_map in H. destruct (nth_error l i) as [a|]; [|discriminate]. injection H as <-. eauto. }
  assert (IDX : forall i j a, nth_error l i = Some a -> nth_error l j = Some a -> i = j).
  { intros i j a Hi Hj. apply (proj1 (NoDup_nth_error l) ND); [apply nth_error_Some; congruence|congruence]. }
  (* a listed triangle that joins x and y is P or its twin *)
  assert (JN : forall P b, (fst P < length ts)%nat -> In b l -> joins (tri3 ts b) (fst (pedge ts P)) (snd (pedge ts P)) -> b = fst P \/ exists Q, ppaired ts P Q /\ b = fst Q).
  { intros P b LP Ib [H|H]; apply sides_pedge in H as [k H].
    - left. assert (Q : (b, k) = P) by (apply (ce_uniq _ _ _ _ CE); auto; rewrite H; destruct (pedge ts P); reflexivity). rewrite <- Q. reflexivity.
    - right. exists (b, k). split; [|reflexivity]. apply (ce_twin _ _ _ _ CE); auto. }
  split.
  - intros x y Ie. destruct (ce_sides _ _ _ _ CE _ Ie) as (P & LP & PE).
    assert (TC : ptc ts P = true). { apply (ce_marks _ _ _ _ CE P LP). unfold swp in *. destruct PE as [->| ->]; cbn [fst snd]; auto. }
    destruct (ce_one _ _ _ _ CE P LP TC) as [ON OP].
    assert (JE : forall t, joins t x y <-> joins t (fst (pedge ts P)) (snd (pedge ts P))).
    { intro t. unfold joins, swp in *. destruct PE as [-> | ->]; cbn [fst snd]; tauto. }
    assert (SELF : forall Q, pedge ts Q = pedge ts P \/ pedge ts Q = swp (pedge ts P) -> joins (tri3 ts (fst Q)) x y).
    { intros Q HQ. apply JE. destruct HQ as [HQ|HQ]; [left|right]; apply sides_pedge; exists (snd Q); destruct Q; cbn [fst snd]; rewrite HQ; destruct (pedge ts P); reflexivity. }
    assert (CASE : exists a, In a l /\ joins (tri3 ts a) x y /\ forall b, In b l -> joins (tri3 ts b) x y -> b = a).
    { destruct (in_dec Nat.eq_dec (fst P) l) as [IP|IP].
      - exists (fst P). split; auto. split; [apply SELF; auto|]. intros b Ib Jb. apply JE in Jb. destruct (JN P b LP Ib Jb) as [|(Q & PQ & ->)]; auto. exfalso. apply (OP Q PQ); auto.
      - destruct (ptn ts P) as [u|] eqn:Qn; [|elim IP; auto].
        destruct (m_adj (ce_mesh _ _ _ _ CE) (fst P) (snd P) u LP Qn) as [j PR]. assert (PR' : ppaired ts P (u, j)) by exact PR.
        assert (IQ : In u l). { destruct (in_dec Nat.eq_dec u l) as [|N]; auto. elim IP. apply (OP (u, j) PR'). exact N. }
        exists u. split; auto. split; [apply (SELF (u, j)); right; apply (twin_edge ts P (u, j) PR')|].
        intros b Ib Jb. apply JE in Jb. destruct (JN P b LP Ib Jb) as [->|([u' j'] & PQ & ->)]; [contradiction|]. cbn [fst].
        destruct PQ as (_ & _ & Q1 & _). unfold ptn in Qn. cbn [fst] in Q1. congruence. }
    destruct CASE as (a & Ia & Ja & UN). destruct (nth_of l a Ia) as [i Hi]. exists i, (tri3 ts a). split; [rewrite nth_error_map, Hi; reflexivity|]. split; auto.
    intros j u Hj Ju. destruct (NTH j u Hj) as (b & Hb & ->). assert (b = a) by (apply UN; auto; eapply nth_error_In; eauto). subst b. eauto.
  - intros i t x y Hi Ht N1 N2. destruct (NTH i t Hi) as (a & Ha & ->). apply sides_pedge in Ht as [k Hk]. assert (Ia : In a l) by (eapply nth_error_In; eauto). pose proof (RL a Ia) as La.
    destruct (ptc ts (a, k)) eqn:TC. { exfalso. apply (ce_marks _ _ _ _ CE (a, k) La) in TC. rewrite Hk in TC. unfold swp in TC. cbn [fst snd] in TC. tauto. }
    destruct (ce_open _ _ _ _ CE (a, k) Ia TC) as ([u j] & PQ & Iu & _). cbn [fst] in Iu. destruct (nth_of l u Iu) as [j' Hj'].
    assert (PU : pedge ts (u, j) = (y, x)) by (rewrite (twin_edge ts (a, k) (u, j) PQ), Hk; reflexivity).
    exists j', (tri3 ts u). split; [rewrite nth_error_map, Hj'; reflexivity|]. split; [apply sides_pedge; eauto|].
    assert (NE : u <> a).
    { intros ->. pose proof (m_ccw (ce_mesh _ _ _ _ CE) a La) as CC. pose proof PQ as (_ & _ & _ & _ & V1 & V2). cbn [fst snd] in V1, V2.
      destruct k, j; cbn [nxt prv] in V1, V2; first [apply (tv_inj CC) in V1; discriminate | apply (tv_inj CC) in V2; discriminate]. }
    split; [intros ->; apply NE; congruence|]. intros j2 u2 H2 J2. destruct (NTH j2 u2 H2) as (b & Hb & ->).
    destruct (JN (a, k) b La) as [Q|([u' j''] & PQ' & Q)]; [eapply nth_error_In; eauto|rewrite Hk; exact J2| |]; cbn [fst] in Q; subst b.
    + left. eauto.
    + right. assert (u' = u) by (destruct PQ as (_ & _ & Q1 & _), PQ' as (_ & _ & Q2 & _); cbn [fst snd] in Q1, Q2; congruence). subst u'. eauto.
Qed.
End Conf.

(** ** the three properties of the list the API returns *)
(** no input point is lost: one that is on a contour, or inside the outer polygon and in no hole, is a corner of a listed triangle *)
Definition corner (v : nat) (abc : nat * nat * nat) : Prop := let '(a, b, c) := abc in v = a \/ v = b \/ v = c.
Definition no_point_lost (n : nat) (z : nat -> zpt) (poly : list nat) (holes : list (list nat)) (ids : list nat) : Prop :=
  forall v, (v < n)%nat -> (exists c, In c (poly :: holes) /\ In v c) \/ (wind z poly (z v) <> 0 /\ forall h, In h holes -> wind z h (z v) = 0) ->
    exists t, In t (triples ids) /\ corner v t.
Lemma joins_corner t x y : joins t x y -> corner x t.
Proof. destruct t as [[a b] c]. unfold joins, sides, corner. simpl. intros [[H|[H|[H|[]]]]|[H|[H|[H|[]]]]]; injection H as H1 H2; auto. Qed.
Lemma scaled_1 p : scaled 1 p = p. Proof. destruct p. unfold scaled. cbn [fst snd]. f_equal; apply Z.mul_1_l. Qed.
Lemma wind_1 z c p : wind (fun v => scaled 1 (z v)) c p = wind z c p.
Proof. unfold wind. apply zsuml_ext. intros e _. rewrite !scaled_1. reflexivity. Qed.
Lemma cyc_out (c : list nat) (v : nat) : In v c -> exists y : nat, In (v, y) (Stokes.cyc c).
Proof.
  intro H. apply In_nth_error in H as [i H]. assert (L : (i < length c)%nat) by (apply nth_error_Some; congruence).
  destruct (cyc_nth c i L) as (x & y & H1 & H2 & H3). exists y. apply (nth_error_In _ i). congruence.
Qed.

Section Run.
Context {A : Arith} {E : Exact A}.
Lemma cells_ext ps es ts (R R' : nat -> Prop) : (forall i, R i <-> R' i) -> cells ps es ts R -> cells ps es ts R'.
Proof.
  intros H C. constructor; try apply C.
  - intros t Rt. apply (ce_range _ _ _ _ C), H, Rt.
  - intros P RP TC. apply H in RP. destruct (ce_open _ _ _ _ C P RP TC) as (Q & H1 & H2 & H3). exists Q. rewrite <- H. auto.
  - intros P LP TC. destruct (ce_one _ _ _ _ C P LP TC) as [H1 H2]. split; [intro Q; apply H; auto|]. intros Q PQ. rewrite <- !H. auto.
Qed.

Lemma listed PD dbg fuel src calls (b : Builder PD) t cbs ids : eq_not_lt -> History.eq_sym ->
  builder_of PD src calls = Done b -> let ps := c_points (build PD b) in
  proper ps -> plane_input ps (history_edges PD src calls) -> observed dbg fuel (build PD b) = (Done t, cbs) -> fills_ccw ps cbs ->
  let poly := outer_contour PD src in let holes := hole_contours PD src calls in
  (forall c, In c (poly :: holes) -> (3 <= length c)%nat) -> holes_nested ps poly holes -> steiner_allowed PD ps src calls ->
  triangle_list_indices dbg PD t = Done ids ->
  let n := length (history_points PD src calls) in
  exists ts l, cells ps (history_edges PD src calls) ts (fun i => In i l) /\ NoDup l /\ triples ids = map (tri3 ts) l /\
    (forall i k, In i l -> (tv ts i k < n)%nat) /\ (forall v, (v < n)%nat -> vertex ts v) /\ fills_region n (zc ps) poly holes ids.
Proof.
  intros L Sy B ps PP PI O F poly holes L3 HN ST ID n.
  destruct (C26_triangle_list PD dbg fuel src calls b t cbs L Sy B PP PI O F L3 HN ST) as (ids' & ID' & FR). assert (ids' = ids) by congruence. subst ids'.
  destruct (cells_of PD dbg fuel src calls b t cbs L Sy B PP PI O F L3 HN ST) as (ts & CE & LEN & AL).
  destruct (C10_result_distinct PD dbg fuel src calls b t cbs B O) as [RD RR].
  destruct (indices_triples dbg (tr_triangles t) (tr_result t) ids RR ID) as (_ & TR & _).
  assert (TR' : triples ids = map (tri3 ts) (valid (tr_result t))) by (rewrite TR; apply map_ext; intro i; unfold tri3; rewrite !AL; reflexivity).
  assert (HD : ps_head ps = n) by (pose proof (History.builder_of_points _ _ _ _ B) as (B1 & _ & _); unfold n; rewrite <- B1; reflexivity).
  exists ts, (valid (tr_result t)). split; [apply (cells_ext _ _ _ _ _ (fun i => iff_sym (valid_in (tr_result t) i)) CE)|]. split; [apply valid_nodup; exact RD|]. split; [exact TR'|].
  split; [|split; [|exact FR]].
  - intros i k Ii. destruct FR as (_ & FR & _). rewrite TR' in FR. destruct (FR (tv ts i I0) (tv ts i I1) (tv ts i I2)) as [(R0 & R1 & R2) _]; [apply (in_map (tri3 ts)) in Ii; exact Ii|].
    destruct k; assumption.
  - intros v Lv. rewrite <- HD in Lv.
    destruct (run_vertices PD dbg fuel src calls b t cbs B PP (scan_exact_sound _ (pi_scan _ _ PI)) O (fills_good _ _ F) v Lv) as (c & k & Lc & Vc).
    exists c, k. rewrite LEN, <- AL. auto.
Qed.

(** ** C43.  The circumcircle of a returned triangle contains no input point strictly inside that is visible from
    the inside of the triangle, the input edges blocking the view. *)
Theorem C43_globally_constrained_delaunay : forall PD dbg fuel src calls (b : Builder PD) t cbs ids, eq_not_lt -> History.eq_sym ->
  builder_of PD src calls = Done b -> let ps := c_points (build PD b) in
  proper ps -> plane_input ps (history_edges PD src calls) -> observed dbg fuel (build PD b) = (Done t, cbs) -> fills_ccw ps cbs ->
  let poly := outer_contour PD src in let holes := hole_contours PD src calls in
  (forall c, In c (poly :: holes) -> (3 <= length c)%nat) -> holes_nested ps poly holes -> steiner_allowed PD ps src calls ->
  triangle_list_indices dbg PD t = Done ids ->
  constrained_delaunay (length (history_points PD src calls)) (zc ps) (history_edges PD src calls) ids.
Proof.
  intros PD dbg fuel src calls b t cbs ids L Sy B ps PP PI O F poly holes L3 HN ST ID.
  destruct (listed PD dbg fuel src calls b t cbs ids L Sy B PP PI O F L3 HN ST ID) as (ts & l & CE & ND & TR & CO & VX & _).
  intros a b' c v k p IN Lv K PT VIS. rewrite TR in IN. apply in_map_iff in IN as (i & Q & Ii). unfold tri3 in Q. injection Q as <- <- <-.
  apply (cells_delaunay ps (history_edges PD src calls) ts (fun i => In i l) (length (history_points PD src calls)) CE (pi_col _ _ PI)) with (k := k) (p := p); auto.
  pose proof (pr_head ps PP) as PH. assert (HD : ps_head ps = length (history_points PD src calls)) by (pose proof (History.builder_of_points _ _ _ _ B) as (B1 & _ & _); rewrite <- B1; reflexivity). lia.
Qed.

(** ** C44.  The returned triangles form a conforming triangulation whose border is the input: each input edge is a
    side of exactly one of them, and each other side is shared by exactly two, in opposite directions. *)
Theorem C44_conforming : forall PD dbg fuel src calls (b : Builder PD) t cbs ids, eq_not_lt -> History.eq_sym ->
  builder_of PD src calls = Done b -> let ps := c_points (build PD b) in
  proper ps -> plane_input ps (history_edges PD src calls) -> observed dbg fuel (build PD b) = (Done t, cbs) -> fills_ccw ps cbs ->
  let poly := outer_contour PD src in let holes := hole_contours PD src calls in
  (forall c, In c (poly :: holes) -> (3 <= length c)%nat) -> holes_nested ps poly holes -> steiner_allowed PD ps src calls ->
  triangle_list_indices dbg PD t = Done ids -> conforming (history_edges PD src calls) ids.
Proof.
  intros PD dbg fuel src calls b t cbs ids L Sy B ps PP PI O F poly holes L3 HN ST ID.
  destruct (listed PD dbg fuel src calls b t cbs ids L Sy B PP PI O F L3 HN ST ID) as (ts & l & CE & ND & TR & _).
  apply (conforming_cells ps _ ts l CE ND ids TR).
Qed.

(** ** C45.  Every contour point, and every Steiner point inside the polygon and in no hole, is a corner of a returned triangle. *)
Theorem C45_no_point_lost : forall PD dbg fuel src calls (b : Builder PD) t cbs ids, eq_not_lt -> History.eq_sym ->
  builder_of PD src calls = Done b -> let ps := c_points (build PD b) in
  proper ps -> plane_input ps (history_edges PD src calls) -> observed dbg fuel (build PD b) = (Done t, cbs) -> fills_ccw ps cbs ->
  let poly := outer_contour PD src in let holes := hole_contours PD src calls in
  (forall c, In c (poly :: holes) -> (3 <= length c)%nat) -> holes_nested ps poly holes -> steiner_allowed PD ps src calls ->
  triangle_list_indices dbg PD t = Done ids -> no_point_lost (length (history_points PD src calls)) (zc ps) poly holes ids.
Proof.
  intros PD dbg fuel src calls b t cbs ids L Sy B ps PP PI O F poly holes L3 HN ST ID.
  destruct (listed PD dbg fuel src calls b t cbs ids L Sy B PP PI O F L3 HN ST ID) as (ts & l & CE & ND & TR & CO & VX & FR).
  pose proof (pr_head ps PP) as PH. assert (HD : ps_head ps = length (history_points PD src calls)) by (pose proof (History.builder_of_points _ _ _ _ B) as (B1 & _ & _); rewrite <- B1; reflexivity).
  intros v Lv [(c & Ic & Iv)|[W1 W2]].
  - destruct (cyc_out c v Iv) as [y Hy].
    assert (IE : In (v, y) (history_edges PD src calls)) by (rewrite <- contours_edges; apply in_flat_map; eauto).
    destruct (conforming_cells ps _ ts l CE ND ids TR) as [C1 _]. destruct (C1 v y IE) as (i & t' & Hi & J & _). exists t'. split; [eapply nth_error_In; eauto|]. apply joins_corner with y. exact J.
  - destruct FR as (_ & _ & _ & _ & CV & _). destruct (CV 1 (zc ps v)) as (t' & It & On); [lia|rewrite wind_1; exact W1|intros h Ih; rewrite wind_1; auto|].
    exists t'. split; auto. rewrite TR in It. apply in_map_iff in It as (i & <- & Ii). unfold tri3, corner, point_on in *. rewrite !scaled_1 in On.
    destruct (Nat.eq_dec v (tv ts i I0)) as [|N0]; auto. destruct (Nat.eq_dec v (tv ts i I1)) as [|N1]; auto. destruct (Nat.eq_dec v (tv ts i I2)) as [|N2]; auto. exfalso.
    destruct (VX v Lv) as (cv & kv & Lcv & Vv). pose proof (ce_range _ _ _ _ CE i Ii) as Li.
    apply (ce_empty _ _ _ _ CE i I0 cv kv Li Lcv). cbn [nxt prv]. rewrite Vv.
    pose proof (CO i I0 Ii) as L0. pose proof (CO i I1 Ii) as L1. pose proof (CO i I2 Ii) as L2.
    pose proof (m_ccw (ce_mesh _ _ _ _ CE) i Li) as CC. apply ccw3_distinct in CC as (D1 & D2 & D3).
    assert (NZ : forall x y, (x < length (history_points PD src calls))%nat -> (y < length (history_points PD src calls))%nat -> x <> y -> v <> x -> v <> y -> 0 <= orient (zc ps x) (zc ps y) (zc ps v) -> 0 < orient (zc ps x) (zc ps y) (zc ps v)).
    { intros x y Lx Ly Nxy Nx Ny G. assert (orient (zc ps x) (zc ps y) (zc ps v) <> 0) by (apply (pi_col _ _ PI); auto; lia). lia. }
    destruct On as (O1 & O2 & O3). split; [|split]; apply NZ; auto.
Qed.
End Run.
