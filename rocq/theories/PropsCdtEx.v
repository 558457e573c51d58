(** * PropsCdtEx: concrete inputs for C43 - C45

    A polygon with a slit: the circumcircle of the triangle on one side of the slit contains a corner on
    the other side, which the slit hides.  The triangle with a hole and a Steiner point.  The convex polygon. *)
From Coq Require Import List Arith Bool Lia ZArith.
From Verif Require Import Base Num Shape Utils Points Cdt F64 Exact Spec History BuilderSpec Geom Region Winding CoverRun PropsMesh PropsCover PropsMarks PropsRegion PropsCup PropsTri PropsTotal PropsTrace Sweeper IntSpec IntRun IntHyp PropsInt PropsIntEx PropsCdt PropsCdtInt.
Import ListNotations.
Local Open Scope nat_scope.

Definition visibleb (z : nat -> zpt) (es : list (nat * nat)) (v : nat) (k : Z) (p : zpt) : bool := forallb (fun e => let X := scaled k (z (fst e)) in let Y := scaled k (z (snd e)) in let V := scaled k (z v) in
  (fst e =? v) || (snd e =? v) || negb ((orient X Y p * orient X Y V <=? 0)%Z && (orient p V X * orient p V Y <=? 0)%Z)) es.
Lemma visibleb_ok z es v k p : visibleb z es v k p = true -> visible z es v k p.
Proof.
  unfold visibleb. rewrite forallb_forall. intros H x y I' Nx Ny [T1 T2]. specialize (H _ I'). cbn [fst snd] in H. apply Nat.eqb_neq in Nx, Ny. apply Z.leb_le in T1, T2. rewrite Nx, Ny, T1, T2 in H. discriminate.
Qed.
Lemma triangulate_more PD dbg f f' (c : @CDT F64 PD) t : f <= f' -> triangulate dbg PD f c = Done t -> triangulate dbg PD f' c = Done t.
Proof.
  intros L H. destruct (observed dbg f c) as [r cbs] eqn:O. pose proof (fuel_irrelevant PD dbg f f' c r cbs O L) as X.
  unfold observed, triangulate_with_observer in O, X. unfold triangulate, triangulate_with_observer in *.
  destruct (run dbg f (c_points c)) as [r0 ctx]. destruct (run dbg f' (c_points c)) as [r1 ctx']. cbn [fst] in *. injection O as O _. rewrite H in O. subst r. injection X as X _. exact X.
Qed.
Lemma indices64_more dbg f f' zs hs st ids : f <= f' -> indices64 dbg f zs hs st = Done ids -> indices64 dbg f' zs hs st = Done ids.
Proof.
  intros L H. unfold indices64, triangulate64 in *. destruct (cdt64 zs hs st) as [c| | |]; try discriminate. cbn [rbind] in *.
  destruct (triangulate dbg unit f c) as [t| | |] eqn:T; try discriminate. rewrite (triangulate_more unit dbg f f' c t L T). exact H.
Qed.
Definition slit : list zpt := [(0,31);(29,0);(60,29);(33,34);(30,5);(27,60)]%Z.
Example slit_ok : integer_input slit /\ edges_apart slit (ring 6) /\ (forall p q, In (p, q) (ring 6) \/ In (q, p) (ring 6) -> ~ capped slit p q).
Proof. split; [apply integer_inputb_ok; vm_compute; reflexivity|]. split; [apply edges_apartb_ok; vm_compute; reflexivity|]. apply uncappedb_ok; vm_compute; reflexivity. Qed.
(** the list returned; it has all the properties; corner 3 is in the circle of triangle (5, 0, 4) but hidden from its
    centre of gravity; corner 1 can be seen from there *)
Example slit_triangulated : (forall fuel, steps 6 <= fuel -> indices64 true fuel slit [] [] = Done [5;0;4; 0;1;4; 2;4;1; 3;4;2]) /\
  proper_cdt 6 (zat slit) (ring 6) (seq 0 6) [] [5;0;4; 0;1;4; 2;4;1; 3;4;2] /\
  (0 < incircle (zat slit 5) (zat slit 0) (zat slit 4) (zat slit 3))%Z /\
  point_in (zat slit) (5, 0, 4) 3 (57, 96)%Z /\ ~ visible (zat slit) (ring 6) 3 3 (57, 96)%Z /\ visible (zat slit) (ring 6) 1 3 (57, 96)%Z.
Proof.
  destruct slit_ok as (H1 & H2 & H3). destruct (C28_integer_polygon_cdt_partial slit H1 H2 H3 true) as (ids & A1 & A2). change (length slit) with 6 in A1.
  assert (R : indices64 true 200 slit [] [] = Done [5;0;4; 0;1;4; 2;4;1; 3;4;2]) by (vm_compute; reflexivity).
  assert (Q : ids = [5;0;4; 0;1;4; 2;4;1; 3;4;2]).
  { pose proof (A1 (Nat.max (steps 6) 200) ltac:(lia)) as X. rewrite (indices64_more true 200 (Nat.max (steps 6) 200) slit [] [] _ ltac:(lia) R) in X. congruence. }
  subst ids. split; [exact A1|]. split; [exact A2|]. split; [vm_compute; reflexivity|]. split; [vm_compute; auto|]. split.
  - intro V. apply (V 4 5); [right; right; right; right; left; reflexivity|lia|lia|]. split; vm_compute; discriminate.
  - apply visibleb_ok. vm_compute. reflexivity.
Qed.
Example nonagon_delaunay : exists ids, (forall fuel, steps 9 <= fuel -> indices64 true fuel nonagon [] [] = Done ids) /\
  forall a b c v, In (a, b, c) (triples ids) -> v < 9 -> (incircle (zat nonagon a) (zat nonagon b) (zat nonagon c) (zat nonagon v) <= 0)%Z.
Proof. destruct nonagon_ok as [H1 H2]. destruct (C43_convex_polygon_delaunay nonagon H1 H2 true) as (ids & A1 & _ & A3). exists ids. split; [exact A1|exact A3]. Qed.
Example annulus_cdt : exists b, builder_of unit hole_src hole_calls = Done b /\ forall dbg, exists t ids,
  (forall fuel, steps 7 <= fuel -> triangulate dbg unit fuel (build unit b) = Done t) /\ triangle_list_indices dbg unit t = Done ids /\
  proper_cdt 7 (zat annulus) [(0,1);(1,2);(2,0);(3,4);(4,5);(5,3)] [0;1;2] [[3;4;5]] ids.
Proof. destruct annulus_ok as (H1 & H2 & H3 & H4 & H5 & H6 & H7). exact (C28_integer_inputs_cdt_partial unit hole_src hole_calls 0%Z annulus unit_0 H1 H2 H3 H4 H5 H6 H7). Qed.

(** fixed-point coordinates: the star in units of 2^-10 (its corners are 0.030..., 0.005..., and so on) *)
Definition grid_src (e : Z) (l : list zpt) : @source F64 unit := (map (grid e) l, repeat tt (length l)).
Lemma grid_polygon e zs : history_points unit (grid_src e zs) [] = map (grid e) zs /\ history_edges unit (grid_src e zs) [] = ring (length zs) /\
  outer_contour unit (grid_src e zs) = seq 0 (length zs) /\ hole_contours unit (grid_src e zs) [] = [].
Proof.
  assert (LS : length (fst (grid_src e zs)) = length zs) by apply map_length.
  split; [apply app_nil_r|]. split; [unfold history_edges; rewrite LS; cbn [calls_edges]; apply app_nil_r|]. split; [unfold outer_contour; rewrite LS; reflexivity|reflexivity].
Qed.
Example star_fine : exists b, builder_of unit (grid_src (-10) star) [] = Done b /\ forall dbg, exists t ids,
  (forall fuel, steps 8 <= fuel -> triangulate dbg unit fuel (build unit b) = Done t) /\ triangle_list_indices dbg unit t = Done ids /\
  proper_cdt 8 (zat star) (ring 8) (seq 0 8) [] ids.
Proof.
  destruct star_ok as (H1 & H2 & H3 & _). destruct (grid_polygon (-10) star) as (E1 & E2 & E3 & E4).
  apply (C28_integer_inputs_cdt_partial unit (grid_src (-10) star) [] (-10)%Z star); auto.
  - split; discriminate.
  - intros c [<-|[]]. cbn. lia.
  - intros k p h _ [].
  - intros v Lv Nv. exfalso. apply (Nv _ (or_introl eq_refl)). change (In v (seq 0 8)). change (v < 8) in Lv. apply in_seq. lia.
Qed.
