(** * Total: success of the steps, as long as every filled triangle was
    counter-clockwise when it was created, or the input is [tame]

    [gd m s Q]: if every triangle announced before was counter-clockwise, and those
    announced by [m] are or the input is tame, then [m] started in [s] succeeds, Q holds,
    and every triangle announced is counter-clockwise. *)
From Coq Require Import List Arith Bool Lia ZArith.
From Verif Require Import Base Num Shape ShapeSpec Utils Points Triangles Front Sweeper Cdt F64 Lists Monad Traverse TraceSpec Grow Exact
  FrontSpec Geom Mesh Rotate Setup Legal Legalize Boundary Chain Remap Attach FrontInv Disc Good Marks Flips Cone Planar Corridor Frames Insert Fills FanAll.
Import ListNotations.

(** ** lists split at a position *)
Lemma nth_app_mid {T} (L : list T) a R : nth_error (L ++ a :: R) (length L) = Some a.
Proof. induction L; simpl; auto. Qed.
Lemma nth_app_mid1 {T} (L : list T) a b R : nth_error (L ++ a :: b :: R) (S (length L)) = Some b.
Proof. induction L; simpl; auto. Qed.
Lemma nth_app_mid2 {T} (L : list T) a b c R : nth_error (L ++ a :: b :: c :: R) (S (S (length L))) = Some c.
Proof. induction L; simpl; auto. Qed.
Lemma remove_mid {T} (L : list T) a b R : list_remove (L ++ a :: b :: R) (S (length L)) = L ++ a :: R.
Proof. induction L as [|x L IH]; simpl; auto. f_equal. exact IH. Qed.
Lemma map_remove {T U} (f : T -> U) l i : map f (list_remove l i) = list_remove (map f l) i.
Proof. revert i. induction l as [|x l IH]; intros [|i]; simpl; auto. f_equal. apply IH. Qed.
Lemma map_insert {T U} (f : T -> U) l i a : map f (list_insert l i a) = list_insert (map f l) i (f a).
Proof. revert i. induction l as [|x l IH]; intros [|i]; simpl; auto. f_equal. apply IH. Qed.
Lemma insert_mid {T} (L R : list T) a : list_insert (L ++ R) (length L) a = L ++ a :: R.
Proof. induction L as [|x L IH]; simpl; [destruct R; reflexivity|]. f_equal. exact IH. Qed.
Lemma nth_map {T U} (f : T -> U) l i y : nth_error (map f l) i = Some y -> exists x, nth_error l i = Some x /\ f x = y.
Proof. rewrite nth_error_map. destruct (nth_error l i); simpl; [|discriminate]. intro H. injection H as <-. eauto. Qed.
Lemma app_cases {T} (l : list T) : l = [] \/ exists l' a, l = l' ++ [a].
Proof. destruct l as [|x l]; auto. right. destruct (exists_last (l := x :: l)) as (l' & a & H); [discriminate|]. eauto. Qed.

(** ** neighbours in a list *)
Fixpoint adj (l : list nat) (u w : nat) : Prop :=
  match l with x :: ((y :: _) as t) => (x = u /\ y = w) \/ adj t u w | _ => False end.
Lemma adj_cons x l u w : adj l u w -> adj (x :: l) u w.
Proof. destruct l; simpl; auto. Qed.
Lemma adj_app L a R u w : adj (L ++ a :: R) u w <-> adj (L ++ [a]) u w \/ adj (a :: R) u w.
Proof.
  induction L as [|x L IH]; [simpl; tauto|].
  destruct L as [|y L]; [simpl; tauto|].
  change ((x :: y :: L) ++ a :: R) with (x :: y :: (L ++ a :: R)). change ((x :: y :: L) ++ [a]) with (x :: y :: (L ++ [a])).
  change (adj (x :: y :: L ++ a :: R) u w) with ((x = u /\ y = w) \/ adj ((y :: L) ++ a :: R) u w).
  change (adj (x :: y :: L ++ [a]) u w) with ((x = u /\ y = w) \/ adj ((y :: L) ++ [a]) u w). tauto.
Qed.
Lemma adj_split l u w : adj l u w <-> exists L R, l = L ++ u :: w :: R.
Proof.
  split.
  - induction l as [|x [|y l] IH]; simpl; try contradiction. intros [[-> ->]|H]; [exists [], l; auto|].
    destruct (IH H) as (L & R & Q). exists (x :: L), R. simpl. rewrite <- Q. auto.
  - intros (L & R & ->). apply adj_app. right. simpl. auto.
Qed.
Lemma adj_in l u w : adj l u w -> In u l /\ In w l.
Proof. intro H. apply adj_split in H as (L & R & ->). rewrite !in_app_iff. simpl. auto. Qed.

(** ** three directions in a half plane *)
Lemma apex_right o u v w : xlt o u -> xlt o v -> xlt o w -> (0 < orient o u v)%Z -> (0 < orient o v w)%Z -> (0 < orient o u w)%Z.
Proof.
  intros H1 H2 H3 H4 H5.
  assert (O : forall a b, orient o a b = ((fst a - fst o) * (snd b - snd o) - (snd a - snd o) * (fst b - fst o))%Z) by (intros; zpts; ring).
  rewrite O in *. unfold xlt in *. apply (half_trans (fst w - fst o) (snd w - snd o) (fst v - fst o) (snd v - snd o)); auto; lia.
Qed.
Lemma apex_left o u v w : xlt u o -> xlt v o -> xlt w o -> (0 < orient o u v)%Z -> (0 < orient o v w)%Z -> (0 < orient o u w)%Z.
Proof.
  intros H1 H2 H3 H4 H5.
  assert (O : forall a b, orient o a b = ((fst o - fst a) * (snd o - snd b) - (snd o - snd a) * (fst o - fst b))%Z) by (intros; zpts; ring).
  rewrite O in *. unfold xlt in *. apply (half_trans (fst o - fst w) (snd o - snd w) (fst o - fst v) (snd o - snd v)); auto; lia.
Qed.

(** ** points on or under a polygonal line *)
Section Under.
Variable z : nat -> Z * Z.
Definition under (vs : list nat) (v : nat) : Prop := exists u w, adj vs u w /\ xlt (z u) (z v) /\ xlt (z v) (z w) /\ (0 < orient (z u) (z v) (z w))%Z.
Definition covered (D vs : list nat) : Prop := forall v, In v D -> In v vs \/ under vs v.
Lemma covered_fill D L a b c R : xlt (z a) (z b) -> xlt (z b) (z c) -> (0 < orient (z a) (z b) (z c))%Z ->
  covered D (L ++ a :: b :: c :: R) -> covered D (L ++ a :: c :: R).
Proof.
  intros X1 X2 O H v Hv. assert (X3 : xlt (z a) (z c)) by (eapply xlt_trans; eauto).
  assert (AC : adj (L ++ a :: c :: R) a c) by (apply adj_split; eauto).
  destruct (H v Hv) as [I|(u & w & AD & V1 & V2 & V3)].
  - rewrite in_app_iff in *. simpl in *. destruct I as [I|[I|[<-|[I|I]]]]; auto. right. exists a, c. auto.
  - right. apply adj_app in AD as [AD|AD]; [exists u, w; split; auto; apply adj_app; auto|].
    destruct AD as [[-> ->]|AD]; [|destruct AD as [[-> ->]|AD]; [|exists u, w; split; auto; apply adj_app; right; right; exact AD]].
    + exists u, c. split; [exact AC|]. split; [auto|]. split; [apply (xlt_trans _ (z w)); auto|]. eapply (apex_right (z u) (z v) (z w) (z c)); auto.
    + exists a, w. split; [exact AC|]. split; [apply (xlt_trans _ (z u)); auto|]. split; [auto|].
      assert (Q1 : (0 < orient (z w) (z u) (z v))%Z) by (rewrite orient_rot'; auto).
      assert (Q2 : (0 < orient (z w) (z a) (z u))%Z) by (rewrite orient_rot'; auto).
      rewrite <- orient_rot'. eapply (apex_left (z w) (z a) (z u) (z v)); auto.
Qed.
Lemma covered_insert D L a c R id : xlt (z a) (z id) -> xlt (z id) (z c) -> (0 < orient (z id) (z a) (z c))%Z -> (forall v, In v D -> z v <> z id) ->
  covered D (L ++ a :: c :: R) -> covered (id :: D) (L ++ a :: id :: c :: R).
Proof.
  intros X1 X2 O DI H v [<-|Hv]; [left; rewrite in_app_iff; simpl; auto|].
  assert (X3 : xlt (z a) (z c)) by (eapply xlt_trans; eauto).
  destruct (H v Hv) as [I|(u & w & AD & V1 & V2 & V3)].
  - left. rewrite in_app_iff in *. simpl in *. tauto.
  - right. apply adj_app in AD as [AD|AD]; [exists u, w; split; auto; apply adj_app; auto|].
    destruct AD as [[-> ->]|AD]; [|exists u, w; split; auto; apply adj_app; right; right; right; exact AD].
    destruct (xlt_total (z v) (z id)) as [Q|[Q|Q]]; [|destruct (DI v Hv Q)|].
    + exists u, id. split; [apply adj_split; eauto|]. split; auto. split; auto.
      eapply (apex_right (z u) (z v) (z w) (z id)); auto. rewrite <- orient_rot in O. exact O.
    + exists id, w. split; [apply adj_split; exists (L ++ [u]), R; rewrite <- app_assoc; auto|]. split; auto. split; auto.
      assert (Q1 : (0 < orient (z w) (z u) (z v))%Z) by (rewrite orient_rot'; auto).
      assert (Q2 : (0 < orient (z w) (z id) (z u))%Z) by (rewrite orient_rot'; auto).
      rewrite <- orient_rot'. eapply (apex_left (z w) (z id) (z u) (z v)); auto.
Qed.
End Under.

Section S.
Context {A : Arith} {E : Exact A}.
Variable dbg : bool.
Variable points : Points.
Hypothesis PP : proper points.
Notation N := (npts points).
Notation zc := (zc points).
Notation bnd := (boundary (ps_head points) (ps_tail points)).
Notation Kst := (Kst points).
Notation J := (J points).
Notation Good := (Good points).
Notation nocol := (nocol points).
Notation within := (within points).
Notation Inv := (Inv points).

(** ** inputs on which no fill goes wrong

    [tm_eps]: the tolerance of the test at sweeper.rs:134 does not swallow a difference;
    [tm_angle]: the sign of the angle computed at utils.rs:85 is right;
    [tm_cup]: below an edge p-q (of those in Ed) that leans to the right the points form a cup: no two of
    them, v left of w, follow a point u on or above the edge in a right turn or on a line. *)
Record tame (Ed : nat -> nat -> Prop) : Prop := {
  tm_col : nocol;
  tm_eps : forall a b pa pb, nth_error (ps_points points) a = Some pa -> nth_error (ps_points points) b = Some pb ->
    f_le (px pa) (f_add (px pb) f_eps) = true -> (fst (zc a) <= fst (zc b))%Z;
  tm_angle : forall o a b po pa pb, nth_error (ps_points points) o = Some po -> nth_error (ps_points points) a = Some pa -> nth_error (ps_points points) b = Some pb ->
    is_negative (angle_new po pa pb) = false -> (0 <= orient (zc o) (zc a) (zc b))%Z;
  tm_cup : forall p q u v w, Ed p q -> (fst (zc q) < fst (zc p))%Z -> u < ps_head points -> v < ps_head points -> w < ps_head points ->
    (fst (zc q) <= fst (zc u))%Z -> (fst (zc u) < fst (zc v))%Z -> (fst (zc v) < fst (zc w))%Z -> (fst (zc w) < fst (zc p))%Z ->
    (orient (zc q) (zc u) (zc p) <= 0)%Z -> (0 < orient (zc q) (zc v) (zc p))%Z -> (0 < orient (zc q) (zc w) (zc p))%Z ->
    (0 < orient (zc u) (zc v) (zc w))%Z
}.

(** ** success *)
Context {Ed : nat -> nat -> Prop}.
Definition gd {T} (m : M T) (s : Sweeper) (Q : T -> Sweeper -> Prop) : Prop :=
  Good (s_trace s) -> Good (s_trace (snd (m s))) \/ tame Ed ->
  exists x, fst (m s) = Done x /\ Q x (snd (m s)) /\ Good (s_trace (snd (m s))).
(** callbacks are only appended *)
Definition Grown (tr : list callback) (s : Sweeper) : Prop := exists l, s_trace s = l ++ tr.
Definition grows {T} (m : M T) : Prop := forall tr, pres (Grown tr) (Grown tr) m.
Lemma Grown_X tr : forall s s' l, s_trace s' = l ++ s_trace s -> Grown tr s -> Grown tr s'.
Proof using. intros s s' l H [l' H']. exists (l ++ l'). rewrite H, H', app_assoc. auto. Qed.
Lemma Grown_good tr s : Grown tr s -> Good (s_trace s) -> Good tr.
Proof using. intros [l H] G. rewrite H in G. apply Forall_app in G. apply G. Qed.
Lemma grows_good {T} (m : M T) s : grows m -> Good (s_trace (snd (m s))) -> Good (s_trace s).
Proof using.
  intros G. specialize (G (s_trace s) s (ex_intro _ [] eq_refl)). unfold wp in G. destruct (m s) as [[x|p|u|] s']; cbn [snd]; intro H; eapply Grown_good; eauto.
Qed.
Lemma gd_bind {T U} (m : M T) (k : T -> M U) s (Q : U -> Sweeper -> Prop) : (forall x, grows (k x)) ->
  gd m s (fun x s' => gd (k x) s' Q) -> gd (bind m k) s Q.
Proof using.
  intros G H G0. unfold gd, bind in *. destruct (m s) as [[x|p|u|] s'] eqn:Em; cbn [fst snd] in *.
  - intro Gd. assert (Gd' : Good (s_trace s') \/ tame Ed) by (destruct Gd as [Gd|Gd]; [left; exact (grows_good (k x) s' (G x) Gd)|auto]).
    destruct (H G0 Gd') as (x' & Q' & K & G1). injection Q' as <-. apply K; auto.
  - intro Gd. destruct (H G0 Gd) as (x' & Q' & K). discriminate.
  - intro Gd. destruct (H G0 Gd) as (x' & Q' & K). discriminate.
  - intro Gd. destruct (H G0 Gd) as (x' & Q' & K). discriminate.
Qed.
Lemma gd_lift {T U} (r : res T) (k : T -> M U) s (Q : U -> Sweeper -> Prop) x : r = Done x -> gd (k x) s Q -> gd (bind (lift r) k) s Q.
Proof using. intros -> H. exact H. Qed.
Lemma gd_front {U} (k : AdvancingFront -> M U) s (Q : U -> Sweeper -> Prop) : gd (k (s_front s)) s Q -> gd (bind get_front k) s Q.
Proof using. auto. Qed.
Lemma gd_tris {U} (k : TriangleStore -> M U) s (Q : U -> Sweeper -> Prop) : gd (k (s_tris s)) s Q -> gd (bind get_tris k) s Q.
Proof using. auto. Qed.
Lemma gd_put_tris {U} ts (k : unit -> M U) s (Q : U -> Sweeper -> Prop) :
  gd (k tt) (mkSw ts (s_front s) (s_result s) (s_trace s)) Q -> gd (bind (put_tris ts) k) s Q.
Proof using. auto. Qed.
Lemma gd_put_front {U} af (k : unit -> M U) s (Q : U -> Sweeper -> Prop) :
  gd (k tt) (mkSw (s_tris s) af (s_result s) (s_trace s)) Q -> gd (bind (put_front af) k) s Q.
Proof using. auto. Qed.
Lemma gd_ret {T} (x : T) s (Q : T -> Sweeper -> Prop) : Q x s -> gd (ret x) s Q.
Proof using. intros H G0 _. exists x. auto. Qed.
Lemma gd_skip s (Q : unit -> Sweeper -> Prop) : Q tt s -> gd skip s Q.
Proof using. apply gd_ret. Qed.
Lemma gd_mono {T} (m : M T) s (Q Q' : T -> Sweeper -> Prop) : gd m s Q -> (forall x s', Q x s' -> Q' x s') -> gd m s Q'.
Proof using. intros H K G0 G. destruct (H G0 G) as (x & H1 & H2 & H3). eauto. Qed.
Lemma gd_wp {T} (m : M T) s F (R Q : T -> Sweeper -> Prop) : gd m s Q -> wp m s F R -> gd m s (fun x s' => Q x s' /\ R x s').
Proof using.
  intros H K G0 G. destruct (H G0 G) as (x & H1 & H2 & H3). unfold wp in K. destruct (m s) as [r s']. cbn [fst snd] in *. subst r. exists x. auto.
Qed.
(** the trace stays good *)
Lemma gd_good {T} (m : M T) s (Q : T -> Sweeper -> Prop) : gd m s Q -> gd m s (fun x s' => Q x s' /\ Good (s_trace s')).
Proof using. intros H G0 G. destruct (H G0 G) as (x & H1 & H2 & H3). eauto. Qed.
Lemma gd_of_wp {T} (m : M T) s (Q : T -> Sweeper -> Prop) : wp m s (fun _ _ => False) (fun x s' => Q x s' /\ (Good (s_trace s) -> Good (s_trace s'))) -> gd m s Q.
Proof using. unfold wp, gd. destruct (m s) as [[x|p|u|] s']; simpl; try contradiction. intros [H1 H2] H3 _. eauto. Qed.

Lemma Grown_IJ tr : forall s, Grown tr s -> Grown tr s. Proof using. auto. Qed.
Lemma gr_fill_one fuel id : grows (fill_one dbg points fuel id).
Proof using. intro tr. apply grow_fill_one, Grown_X. Qed.
Lemma gr_point_event fuel id p : grows (point_event dbg points fuel id p).
Proof using. intro tr. apply grow_point_event, Grown_X. Qed.
Lemma gr_fill_right_holes fuel id : grows (fill_right_holes dbg points fuel id).
Proof using. intro tr. apply (fill_right_holes_pres dbg points _ _ (Grown_IJ tr)). intros. apply gr_fill_one. Qed.
Lemma gr_fill_left_holes fuel id : grows (fill_left_holes dbg points fuel id).
Proof using. intro tr. apply (fill_left_holes_pres dbg points _ _ (Grown_IJ tr)). intros. apply gr_fill_one. Qed.
Lemma gr_fill_basin_req fuel id b : grows (fill_basin_req dbg points fuel id b).
Proof using. intro tr. apply (fill_basin_req_pres dbg points _ _ (Grown_IJ tr)). intros. apply gr_fill_one. Qed.
Lemma gr_fill_basin fuel id : grows (fill_basin dbg points fuel id).
Proof using. intro tr. apply (fill_basin_pres dbg points _ _ (Grown_IJ tr)). intros. apply gr_fill_one. Qed.
Lemma gr_faf fuel p : grows (fill_advancing_front dbg points fuel p).
Proof using. intro tr. apply (fill_advancing_front_pres dbg points _ _ (Grown_IJ tr)). intros. apply gr_fill_one. Qed.
Lemma gr_legalize fuel t : grows (legalize dbg points fuel t).
Proof using. intro tr. apply grow_legalize, Grown_X. Qed.

(** ** fuel that suffices for every legalization *)
Definition enough (fuel : nat) : Prop := N * N - N + 1 < fuel /\ 2 * N < fuel.

(** ** the state between two steps, front as a list of points *)
Definition vs_of (s : Sweeper) : list nat := map en_pid (nodes (s_front s)).
Record TK (D : list nat) (vs : list nat) (s : Sweeper) : Prop := {
  tk_inv : Inv D s;
  tk_good : Good (s_trace s);
  tk_vs : vs_of s = vs;
  tk_cnt : length (s_tris s) + length vs = 2 * length D + 2;
  tk_D : length D <= N;
  tk_below : covered zc D vs
}.
Lemma tk_K D vs s : TK D vs s -> Kst D [] [] (s_tris s) (s_front s).
Proof using. intros [(H1 & H2 & H3) G _ _ _ _]. auto. Qed.
Lemma tk_fo D vs s : TK D vs s -> front_ok points (s_front s).
Proof using. intro H. apply (tk_K _ _ _ H). Qed.
Lemma tk_C D vs s : TK D vs s -> chain points (nodes (s_front s)).
Proof using. intro H. apply (tk_fo _ _ _ H). Qed.
Lemma tk_len2 D vs s : TK D vs s -> 2 <= length vs.
Proof using PP. intro H. rewrite <- (tk_vs _ _ _ H). unfold vs_of. rewrite map_length. apply (ch_len points PP). apply (tk_C _ _ _ H). Qed.
Lemma tk_lt D vs s : TK D vs s -> forall i j a b, i < j -> nth_error vs i = Some a -> nth_error vs j = Some b -> xlt (zc a) (zc b).
Proof using.
  intros H i j a b L Ha Hb. rewrite <- (tk_vs _ _ _ H) in *. apply nth_map in Ha as (ea & Ha & <-). apply nth_map in Hb as (eb & Hb & <-).
  eapply ch_lt; eauto. apply (tk_C _ _ _ H).
Qed.
Lemma tk_range D vs s : TK D vs s -> forall v, In v vs -> v < N.
Proof using.
  intros H v Hv. rewrite <- (tk_vs _ _ _ H) in Hv. apply In_nth_error in Hv as [i Hi]. apply nth_map in Hi as (e & He & <-).
  apply (ch_z' points _ (tk_C _ _ _ H) _ _ He).
Qed.
(** points left and right of a front node *)
Lemma tk_split D vs s L v R : TK D vs s -> vs = L ++ v :: R ->
  (forall u, In u L -> xlt (zc u) (zc v)) /\ (forall u, In u R -> xlt (zc v) (zc u)) /\ ~ In v L /\ ~ In v R.
Proof using.
  intros H Q. assert (X1 : forall u, In u L -> xlt (zc u) (zc v)).
  { intros u Hu. apply In_nth_error in Hu as [i Hi]. assert (Li := nth_error_lt _ _ _ Hi). eapply (tk_lt _ _ _ H i (length L)); auto; rewrite Q; [|apply nth_app_mid].
    rewrite nth_error_app1; auto. }
  assert (X2 : forall u, In u R -> xlt (zc v) (zc u)).
  { intros u Hu. apply In_nth_error in Hu as [i Hi]. eapply (tk_lt _ _ _ H (length L) (length L + S i)); [lia| |]; rewrite Q; [apply nth_app_mid|].
    rewrite nth_error_app2 by lia. replace (length L + S i - length L) with (S i) by lia. exact Hi. }
  split; auto. split; auto. split; intro I0; [apply (xlt_irrefl _ (X1 _ I0))|apply (xlt_irrefl _ (X2 _ I0))].
Qed.

(** a node id for a point *)
Notation nid_ok := (nid_ok points).
(** n is the node reference for the front point v at the split L | v | R *)
Definition ref (af : AdvancingFront) (L : list nat) (v : nat) (R : list nat) (n : NodeRef) : Prop :=
  map en_pid (nodes af) = L ++ v :: R /\ nr_index n = length L /\ nref_ok (nodes af) n.
Section Refs.
Variables (af : AdvancingFront).
Hypothesis C : chain points (nodes af).
Lemma ref_at L v R : map en_pid (nodes af) = L ++ v :: R -> exists e, nth_error (nodes af) (length L) = Some e /\ en_pid e = v /\ ref af L v R (to_node e (length L)).
Proof using.
  intro H. pose proof (nth_app_mid L v R) as X. rewrite <- H in X. apply nth_map in X as (e & He & <-). exists e. split; auto. split; auto.
  split; auto. split; auto. exists e. auto.
Qed.
Lemma ref_pid L v R n : ref af L v R n -> nr_pid n = v /\ nth_error (ps_points points) v = Some (nr_point n) /\ nid_ok (get_node_id n) /\ ni_pid (get_node_id n) = v.
Proof using C.
  intros (H1 & H2 & (e & H3 & H4)). pose proof (nth_app_mid L v R) as X. rewrite <- H1, <- H2 in X. apply nth_map in X as (e' & He & Q).
  assert (e' = e) as -> by congruence. assert (Pn : nr_pid n = v) by (rewrite H4; exact Q).
  assert (Pt : nth_error (ps_points points) v = Some (nr_point n)). { rewrite H4. cbn [to_node nr_point]. rewrite <- Q. apply (ch_key _ _ C). eapply nth_error_In; eauto. }
  split; auto. split; auto. assert (Q2 : ni_pid (get_node_id n) = v) by (rewrite H4; exact Q). split; auto.
  unfold Chain.nid_ok. rewrite Q2. rewrite Pt. rewrite H4. reflexivity.
Qed.
Lemma ref_next L v R n : ref af L v R n -> match R with
  | [] => next_node af n = None
  | w :: R' => exists n', next_node af n = Some n' /\ ref af (L ++ [v]) w R' n' end.
Proof using.
  intros (H1 & H2 & (e & H3 & H4)). unfold next_node. rewrite H2, Nat.add_1_r.
  assert (LN : length (nodes af) = length L + S (length R)) by (rewrite <- (map_length en_pid), H1, app_length; auto).
  destruct R as [|w R]; cbn [length] in LN.
  - rewrite (proj2 (Nat.ltb_ge _ _)) by lia. auto.
  - rewrite (proj2 (Nat.ltb_lt _ _)) by lia. assert (H1' : map en_pid (nodes af) = (L ++ [v]) ++ w :: R) by (rewrite H1, <- app_assoc; auto).
    destruct (ref_at _ _ _ H1') as (e' & He' & _ & Q). rewrite app_length in He', Q. cbn [length] in He', Q. rewrite Nat.add_1_r in He', Q. rewrite He'. eauto.
Qed.
Lemma ref_prev L v R n : ref af L v R n -> forall L' u, L = L' ++ [u] -> exists n', prev_node af n = Done (Some n') /\ ref af L' u (v :: R) n'.
Proof using.
  intros (H1 & H2 & (e & H3 & H4)) L' u ->. unfold prev_node. rewrite H2, app_length. cbn [length]. rewrite Nat.add_1_r.
  assert (H1' : map en_pid (nodes af) = L' ++ u :: v :: R) by (rewrite H1, <- app_assoc; auto).
  destruct (ref_at _ _ _ H1') as (e' & He' & _ & Q). unfold get_unchecked. rewrite He'. cbn [rbind]. eauto.
Qed.
Lemma ref_prev0 v R n : ref af [] v R n -> prev_node af n = Done None.
Proof using. intros (H1 & H2 & _). unfold prev_node. rewrite H2. reflexivity. Qed.

Lemma split_inj (L R L' R' : list nat) v : map en_pid (nodes af) = L ++ v :: R -> L ++ v :: R = L' ++ v :: R' -> L' = L /\ R' = R.
Proof using C.
  intros H H'.
  assert (X1 : nth_error (map en_pid (nodes af)) (length L) = Some v) by (rewrite H; apply nth_app_mid).
  assert (X2 : nth_error (map en_pid (nodes af)) (length L') = Some v) by (rewrite H, H'; apply nth_app_mid).
  apply nth_map in X1 as (e1 & Y1 & Z1). apply nth_map in X2 as (e2 & Y2 & Z2).
  assert (LL : length L = length L') by (eapply (ch_nodup points _ C); eauto; congruence).
  clear -H' LL. revert L' H' LL. induction L as [|x L IH]; intros [|x' L'] H' LL; try discriminate; cbn in *.
  - injection H' as <-. auto.
  - injection H' as <- H'. destruct (IH L' H' ltac:(lia)) as [-> ->]. auto.
Qed.
(** looking up an id *)
Lemma resolve_in id L R : nid_ok id -> map en_pid (nodes af) = L ++ ni_pid id :: R -> resolve_index_for_id af id = FOk (length L).
Proof using C PP.
  intros Hid H. pose proof (search_pid points PP _ C _ _ _ Hid (resolve_ok points PP af id C Hid)) as S0.
  destruct (ref_at _ _ _ H) as (e & He & Pe & _).
  destruct (resolve_index_for_id af id) as [i|i].
  - destruct S0 as (e' & He' & Pe'). f_equal. eapply (ch_nodup points _ C); eauto. congruence.
  - destruct S0 as [S0 _]. destruct (S0 _ _ He Pe).
Qed.
Lemma get_id id L R : nid_ok id -> map en_pid (nodes af) = L ++ ni_pid id :: R -> exists n, get_node_with_id af id = Done (Some n) /\ ref af L (ni_pid id) R n.
Proof using C PP.
  intros Hid H. unfold get_node_with_id. rewrite (resolve_in id L R Hid H). destruct (ref_at _ _ _ H) as (e & He & Pe & Q).
  unfold get_unchecked. rewrite He. cbn [rbind]. eauto.
Qed.
Lemma next_id id L R : nid_ok id -> map en_pid (nodes af) = L ++ ni_pid id :: R -> match R with
  | [] => locate_next_node af id = Done None
  | w :: R' => exists n, locate_next_node af id = Done (Some n) /\ ref af (L ++ [ni_pid id]) w R' n end.
Proof using C PP.
  intros Hid H. unfold locate_next_node. rewrite (resolve_in id L R Hid H), Nat.add_1_r.
  assert (LN : length (nodes af) = length L + S (length R)) by (rewrite <- (map_length en_pid), H, app_length; auto).
  destruct R as [|w R]; cbn [length] in LN.
  - rewrite (proj2 (Nat.ltb_ge _ _)) by lia. auto.
  - rewrite (proj2 (Nat.ltb_lt _ _)) by lia. assert (H1' : map en_pid (nodes af) = (L ++ [ni_pid id]) ++ w :: R) by (rewrite H, <- app_assoc; auto).
    destruct (ref_at _ _ _ H1') as (e' & He' & _ & Q). rewrite app_length in He', Q. cbn [length] in He', Q. rewrite Nat.add_1_r in He', Q.
    unfold get_unchecked. rewrite He'. cbn [rbind]. eauto.
Qed.
(** the id may have been removed: what counts is the position where it belongs *)
Lemma resolve_pos id L R : nid_ok id -> map en_pid (nodes af) = L ++ R -> (forall u, In u L -> xlt (zc u) (zc (ni_pid id))) ->
  (forall u, In u R -> ~ xlt (zc u) (zc (ni_pid id))) -> resolve_index_for_id af id = FOk (length L) \/ resolve_index_for_id af id = FErr (length L).
Proof using C PP.
  intros Hid H HL HR. pose proof (search_pid points PP _ C _ _ _ Hid (resolve_ok points PP af id C Hid)) as S0.
  assert (LN : length (nodes af) = length L + length R) by (rewrite <- (map_length en_pid), H, app_length; auto).
  assert (XL : forall i e, i < length L -> nth_error (nodes af) i = Some e -> xlt (zc (en_pid e)) (zc (ni_pid id))).
  { intros i e Li He. apply HL. assert (X := map_nth_error en_pid i _ He). rewrite H, nth_error_app1 in X by auto. eapply nth_error_In; eauto. }
  assert (XR : forall i e, length L <= i -> nth_error (nodes af) i = Some e -> ~ xlt (zc (en_pid e)) (zc (ni_pid id))).
  { intros i e Li He. apply HR. assert (X := map_nth_error en_pid i _ He). rewrite H, nth_error_app2 in X by auto. eapply nth_error_In; eauto. }
  destruct (resolve_index_for_id af id) as [i|i]; [left|right]; f_equal.
  - destruct S0 as (e & He & Pe). destruct (Nat.lt_trichotomy i (length L)) as [Q|[Q|Q]]; auto; exfalso.
    + specialize (XL i e Q He). rewrite Pe in XL. apply (xlt_irrefl _ XL).
    + destruct (nth_error_ex (nodes af) (length L)) as [e' He']; [apply nth_error_lt in He; lia|].
      apply (XR _ _ (le_n _) He'). rewrite <- Pe. eapply (ch_lt points _ C); eauto.
  - destruct S0 as (_ & Li & S1 & S2). destruct (Nat.lt_trichotomy i (length L)) as [Q|[Q|Q]]; auto; exfalso.
    + destruct (nth_error_ex (nodes af) i) as [e He]; [lia|]. apply (xlt_irrefl (zc (ni_pid id))). eapply xlt_trans; [apply (S2 i e); auto|apply (XL i e); auto].
    + destruct (nth_error_ex (nodes af) (length L)) as [e He]; [lia|]. apply (XR _ _ (le_n _) He). apply (S1 (length L) e); auto.
Qed.
Lemma prev_id id L R : nid_ok id -> map en_pid (nodes af) = L ++ R -> (forall u, In u L -> xlt (zc u) (zc (ni_pid id))) ->
  (forall u, In u R -> ~ xlt (zc u) (zc (ni_pid id))) ->
  (L = [] -> locate_prev_node af id = Done None) /\
  (forall L' u, L = L' ++ [u] -> exists n, locate_prev_node af id = Done (Some n) /\ ref af L' u R n).
Proof using C PP.
  intros Hid H HL HR. unfold locate_prev_node.
  assert (Q : match resolve_index_for_id af id with FOk i => i | FErr i => i end = length L) by (destruct (resolve_pos id L R Hid H HL HR) as [-> | ->]; auto).
  rewrite Q. split; [intros ->; auto|]. intros L' u ->. rewrite app_length. cbn [length]. rewrite Nat.add_1_r.
  assert (H1' : map en_pid (nodes af) = L' ++ u :: R) by (rewrite H, <- app_assoc; auto).
  destruct (ref_at _ _ _ H1') as (e' & He' & _ & Q'). unfold get_unchecked. rewrite He'. cbn [rbind]. eauto.
Qed.
(** looking up coordinates *)
Lemma get_pt id p L R : cache_ok af -> nth_error (ps_points points) id = Some p -> map en_pid (nodes af) = L ++ id :: R -> exists n, get_node af p = Done (Some n) /\ ref af L id R n.
Proof using C PP.
  intros K Hp H. unfold get_node. destruct (search_ok_cache points PP af id p (conj C K) Hp) as (r & -> & SO). cbn [rbind].
  pose proof (search_pid points PP _ C id p r Hp SO) as S0. destruct (ref_at _ _ _ H) as (e & He & Pe & Q). destruct r as [i|i].
  - destruct S0 as (e' & He' & Pe'). assert (i = length L) as -> by (eapply (ch_nodup points _ C); eauto; congruence).
    unfold get_unchecked. rewrite He'. cbn [rbind]. rewrite He in He'. injection He' as <-. eauto.
  - destruct S0 as [S0 _]. destruct (S0 _ _ He Pe).
Qed.
Lemma get_pt_cache id p L R : cache_ok af -> nth_error (ps_points points) id = Some p -> map en_pid (nodes af) = L ++ id :: R ->
  exists n, get_node_with_cache af p = Done (Some n, mkFront (nodes af) (Some (p, length L))) /\ ref af L id R n.
Proof using C PP.
  intros K Hp H. unfold get_node_with_cache. destruct (search_ok_cache points PP af id p (conj C K) Hp) as (r & -> & SO). cbn [rbind].
  pose proof (search_pid points PP _ C id p r Hp SO) as S0. destruct (ref_at _ _ _ H) as (e & He & Pe & Q). destruct r as [i|i].
  - destruct S0 as (e' & He' & Pe'). assert (i = length L) as -> by (eapply (ch_nodup points _ C); eauto; congruence).
    unfold get_unchecked. cbn [nodes]. rewrite He'. cbn [rbind]. rewrite He in He'. injection He' as <-. eauto.
  - destruct S0 as [S0 _]. destruct (S0 _ _ He Pe).
Qed.
End Refs.

(** orientation of three different points *)
Lemma orient_pts a b c pa pb pc : nth_error (ps_points points) a = Some pa -> nth_error (ps_points points) b = Some pb -> nth_error (ps_points points) c = Some pc ->
  a <> b -> b <> c -> a <> c ->
  orient_2d dbg pa pb pc = Done (match (orient (zc a) (zc b) (zc c) ?= 0)%Z with Gt => CCW | Lt => CW | Eq => Collinear end).
Proof using PP.
  intros Ha Hb Hc N1 N2 N3. destruct (pt_finp points PP _ _ Ha) as [Fa Za], (pt_finp points PP _ _ Hb) as [Fb Zb], (pt_finp points PP _ _ Hc) as [Fc Zc].
  rewrite orient_2d_exact; auto.
  - rewrite Za, Zb, Zc. reflexivity.
  - intros _. apply nth_error_lt in Ha, Hb, Hc. rewrite Za, Zb, Zc. repeat split; intro Q; apply (pr_inj points PP) in Q; auto.
Qed.
Lemma orient_ccw a b c pa pb pc : nth_error (ps_points points) a = Some pa -> nth_error (ps_points points) b = Some pb -> nth_error (ps_points points) c = Some pc ->
  a <> b -> b <> c -> a <> c -> exists o, orient_2d dbg pa pb pc = Done o /\
    (is_ccw o = true <-> (0 < orient (zc a) (zc b) (zc c))%Z) /\ (is_cw o = true <-> (orient (zc a) (zc b) (zc c) < 0)%Z).
Proof using PP.
  intros. eexists. split; [eapply orient_pts; eauto|].
  destruct (Z.compare_spec (orient (zc a) (zc b) (zc c)) 0); simpl; split; split; auto; try discriminate; intro; lia.
Qed.
End S.
