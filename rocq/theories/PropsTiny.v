(** * PropsTiny: the comparison with EPSILON is not scaled to the input (C50)

    utils.rs:63-75 and sweeper.rs:143 compare determinants, which have the dimension of an area, and
    coordinates with the constant EPSILON = 2^-52 (= f64::EPSILON).  Down to a unit of 2^-20 that does no harm
    (C42, C49); a polygon a few times 2^-30 wide is different: the same six corners that are triangulated in units of 1 or 2^-20
    make the code panic in units of 2^-30, in both build profiles, although scaling by a power of two changes no bit
    of any mantissa. *)
From Coq Require Import List Arith Bool Lia ZArith.
From Verif Require Import Base Num Shape Utils Points Triangles Front Sweeper Cdt F64 Exact Spec History BuilderSpec PropsTri PropsTrace PropsTotal IntSpec IntRun IntHyp PropsInt PropsIntEx PropsCdtInt PropsCdtEx Unique PropsUnique Moved PropsMoved.
Import ListNotations.
Local Open Scope nat_scope.

(** [Builder::new(poly).build().triangulate().triangle_list_indices()] on corners in units of 2^e *)
Definition grid_indices (e : Z) (dbg : bool) (fuel : nat) (zs : list zpt) : res (list nat) :=
  match builder_of unit (grid_src e zs) [] with
  | Done b => match triangulate dbg unit fuel (build unit b) with Done t => triangle_list_indices dbg unit t | Panic s => Panic s | Ub s => Ub s | OutOfFuel => OutOfFuel end
  | Panic s => Panic s | Ub s => Ub s | OutOfFuel => OutOfFuel end.
Lemma triangulate_panics PD dbg f f' (c : @CDT F64 PD) s : f <= f' -> triangulate dbg PD f c = Panic s -> triangulate dbg PD f' c = Panic s.
Proof.
  intros L H. destruct (observed dbg f c) as [r cbs] eqn:O. pose proof (fuel_irrelevant PD dbg f f' c r cbs O L) as X.
  unfold observed, triangulate_with_observer in O, X. unfold triangulate, triangulate_with_observer in *.
  destruct (run dbg f (c_points c)) as [r0 ctx]. destruct (run dbg f' (c_points c)) as [r1 ctx']. cbn [fst] in *. injection O as O _. rewrite H in O. subst r. injection X as X _. exact X.
Qed.

(** the polygons for which everything works in units from 2^-20 to 2^400 *)
Definition fine_polygon (zs : list zpt) : Prop := integer_input zs /\ no_four_cocircular (length zs) (zat zs) /\ edges_apart zs (ring (length zs)) /\
  (forall p q, In (p, q) (ring (length zs)) \/ In (q, p) (ring (length zs)) -> ~ capped zs p q).
Theorem C50_units_do_not_matter : forall zs e e', fine_polygon zs -> unit_ok e -> unit_ok e' ->
  forall dbg dbg', exists ids ids', (forall fuel, steps (length zs) <= fuel -> grid_indices e dbg fuel zs = Done ids /\ grid_indices e' dbg' fuel zs = Done ids') /\ same_indices ids ids'.
Proof.
  intros zs e e' (IN & NC & EA & CU) UB UB' dbg dbg'. destruct (grid_polygon e zs) as (E1 & E2 & E3 & E4). destruct (grid_polygon e' zs) as (G1 & G2 & G3 & G4).
  assert (ID : map (moved 1 (0, 0)%Z) zs = zs) by (rewrite (map_ext _ (fun x => x)) by exact moved_id; apply map_id).
  destruct (C49_moved unit unit (grid_src e zs) [] zs (grid_src e' zs) [] e e' 1%Z (0, 0)%Z UB E1 IN NC) as (b & b' & B & B' & H).
  - lia.
  - exact UB'.
  - rewrite ID. exact G1.
  - rewrite ID. exact (proj1 (proj2 IN)).
  - rewrite E3, G3. reflexivity.
  - reflexivity.
  - rewrite E2. exact EA.
  - rewrite E2. exact CU.
  - rewrite E3, E4. intros c [<-|[]]. rewrite seq_length. apply IN.
  - rewrite E4. intros k p h _ [].
  - rewrite E3, E4. intros v Lv Nv. exfalso. apply (Nv _ (or_introl eq_refl)). apply in_seq. lia.
  - destruct (H dbg dbg') as (t & t' & ids & ids' & T & I' & T' & I'' & S'). exists ids, ids'. split; [|exact S']. intros fuel LE.
    unfold grid_indices. rewrite B, B', (T fuel LE), (T' fuel LE). auto.
Qed.
Print Assumptions C50_units_do_not_matter.

(** outside that range: not so *)
Definition C50_claim : Prop := forall zs e, fine_polygon zs -> (-1000 <= e <= 400)%Z ->
  forall dbg, exists ids fuel0, forall fuel, fuel0 <= fuel -> grid_indices e dbg fuel zs = Done ids.
Example slit_fine : fine_polygon slit.
Proof. destruct slit_ok as (H1 & H2 & H3). split; [exact H1|]. split; [apply (cocircularb_ok slit); vm_compute; reflexivity|]. split; [exact H2|exact H3]. Qed.
Definition site_of {X} (r : res X) : option psite := match r with Panic s => Some s | _ => None end.
Lemma site_of_ok {X} (r : res X) s : site_of r = Some s -> r = Panic s.
Proof. destruct r; cbn; congruence. Qed.
Theorem C50_tiny_polygon_panics : forall fuel, 300 <= fuel -> grid_indices (-30) true fuel slit = Panic P_dbg_orient_same /\ grid_indices (-30) false fuel slit = Panic P_opposing_on_edge.
Proof.
  intros fuel LE. unfold grid_indices.
  assert (B : exists b, builder_of unit (grid_src (-30) slit) [] = Done b /\ site_of (triangulate true unit 300 (build unit b)) = Some P_dbg_orient_same /\ site_of (triangulate false unit 300 (build unit b)) = Some P_opposing_on_edge).
  { eexists. split; [reflexivity|]. split; vm_compute; reflexivity. }
  destruct B as (b & B & T1 & T2). rewrite B. apply site_of_ok in T1, T2.
  rewrite (triangulate_panics unit true 300 fuel (build unit b) _ LE T1), (triangulate_panics unit false 300 fuel (build unit b) _ LE T2). auto.
Qed.
Theorem C50_every_scale_refuted : ~ C50_claim.
Proof.
  intro H. destruct (H slit (-30)%Z slit_fine ltac:(lia) true) as (ids & f0 & K).
  specialize (K (f0 + 300) ltac:(lia)). destruct (C50_tiny_polygon_panics (f0 + 300) ltac:(lia)) as [Q _]. rewrite Q in K. discriminate K.
Qed.
Print Assumptions C50_tiny_polygon_panics.
Print Assumptions C50_every_scale_refuted.
Example slit_units : forall dbg, exists ids ids', (forall fuel, steps 6 <= fuel -> grid_indices 0 dbg fuel slit = Done ids /\ grid_indices (-20) dbg fuel slit = Done ids') /\ same_indices ids ids'.
Proof. intro dbg. apply (C50_units_do_not_matter slit 0%Z (-20)%Z); [exact slit_fine|exact unit_0|split; discriminate]. Qed.
