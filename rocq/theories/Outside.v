(** * Outside: the winding number does not change near a point that is on no side of the polygon; so the corners of the
    triangles that fill a region are on its border or inside it, and points outside it do not matter *)
From Coq Require Import List Arith Bool Lia ZArith Permutation.
From Verif Require Import Base Num Shape ShapeSpec Utils Points Triangles Front Sweeper Cdt F64 Lists Exact Geom Mesh Winding CoverRun Stokes Region Screen PropsTri PropsCdt PropsCdtInt Unique.
Import ListNotations.
Local Open Scope Z_scope.

(** crossings of the ray from q, points straight below q counted with the other rule *)
Definition cr' (u v p : zpt) : Z :=
  if (fst u <? fst p) && (fst p <=? fst v) then (if 0 <=? orient u v p then 1 else 0)
  else if (fst v <? fst p) && (fst p <=? fst u) then (if orient u v p <=? 0 then -1 else 0)
  else 0.
Definition under (q u : zpt) : Z := if (fst u =? fst q) && (snd u <? snd q) then 1 else 0.
Lemma cr_cr' u w q : orient u w q <> 0 -> cr' u w q = cr u w q + (under q w - under q u).
Proof.
  intro O. unfold cr', cr, under.
  assert (X1 : fst u = fst q -> orient u w q = (fst w - fst q) * (snd q - snd u)) by (intro Q; unfold orient, orient_det; rewrite Q; ring).
  assert (X2 : fst w = fst q -> orient u w q = (fst q - fst u) * (snd q - snd w)) by (intro Q; unfold orient, orient_det; rewrite Q; ring).
  set (o := orient u w q) in *. clearbody o.
  destruct (Z.eqb_spec (fst u) (fst q)) as [E1|E1]; destruct (Z.eqb_spec (fst w) (fst q)) as [E2|E2]; cbn [andb].
  - exfalso. apply O. rewrite (X1 E1), E2. ring.
  - rewrite (X1 E1) in *. clear X1 X2. destruct (Z.ltb_spec (fst u) (fst q)); [lia|]. destruct (Z.leb_spec (fst u) (fst q)); [|lia]. cbn [andb].
    destruct (Z.ltb_spec (fst q) (fst w)); destruct (Z.ltb_spec (fst w) (fst q)); try lia; destruct (Z.leb_spec (fst q) (fst u)); try lia; destruct (Z.leb_spec (fst w) (fst q)); try lia; destruct (Z.ltb_spec (fst q) (fst u)); try lia; cbn [andb];
    destruct (Z.ltb_spec (snd u) (snd q)); repeat match goal with |- context [Z.leb ?a ?b] => destruct (Z.leb_spec a b) end; try lia; exfalso; nia.
  - rewrite (X2 E2) in *. clear X1 X2. destruct (Z.leb_spec (fst q) (fst w)); [|lia]. destruct (Z.ltb_spec (fst q) (fst w)); [lia|]. rewrite !andb_false_r.
    destruct (Z.ltb_spec (fst u) (fst q)); destruct (Z.ltb_spec (fst w) (fst q)); try lia; destruct (Z.leb_spec (fst w) (fst q)); try lia; destruct (Z.ltb_spec (fst q) (fst u)); try lia; cbn [andb];
    destruct (Z.ltb_spec (snd w) (snd q)); repeat match goal with |- context [Z.leb ?a ?b] => destruct (Z.leb_spec a b) end; try lia; exfalso; nia.
  - destruct (Z.ltb_spec (fst u) (fst q)), (Z.leb_spec (fst u) (fst q)), (Z.leb_spec (fst q) (fst w)), (Z.ltb_spec (fst q) (fst w)), (Z.ltb_spec (fst w) (fst q)), (Z.leb_spec (fst w) (fst q)), (Z.leb_spec (fst q) (fst u)), (Z.ltb_spec (fst q) (fst u)); try lia; cbn [andb]; lia.
Qed.

(** the near point of a corner, in a fine enough unit, sees an edge as the corner does *)
Lemma cr_near m u w q x y : 0 < m -> Z.abs (drift u w q x y) < m -> Z.abs (fst x + fst y - 2 * fst q) < m -> orient u w q <> 0 ->
  cr (scaled m u) (scaled m w) (near m q x y) = if 0 <=? fst x + fst y - 2 * fst q then cr u w q else cr' u w q.
Proof.
  intros M D DX O. set (d := fst x + fst y - 2 * fst q) in *.
  assert (SO : (0 <=? orient (scaled m u) (scaled m w) (near m q x y)) = (0 <=? orient u w q) /\ (orient (scaled m u) (scaled m w) (near m q x y) <=? 0) = (orient u w q <=? 0)).
  { destruct (Z_lt_le_dec 0 (orient u w q)) as [P|P].
    - pose proof (near_pos m u w q x y M D P). split; [rewrite !(proj2 (Z.leb_le _ _)) by lia; reflexivity|rewrite !(proj2 (Z.leb_gt _ _)) by lia; reflexivity].
    - pose proof (near_neg m u w q x y M D ltac:(lia)). split; [rewrite !(proj2 (Z.leb_gt _ _)) by lia; reflexivity|rewrite !(proj2 (Z.leb_le _ _)) by lia; reflexivity]. }
  destruct SO as [S1 S2]. unfold cr, cr'. rewrite S1, S2. clear S1 S2 D.
  assert (FX : fst (near m q x y) = m * fst q + d) by reflexivity. rewrite FX. change (fst (scaled m u)) with (m * fst u). change (fst (scaled m w)) with (m * fst w).
  assert (LE : forall a, (m * a <=? m * fst q + d) = if 0 <=? d then a <=? fst q else a <? fst q).
  { intro a. destruct (Z.leb_spec 0 d); destruct (Z.leb_spec (m * a) (m * fst q + d)); symmetry; rewrite ?Z.leb_le, ?Z.leb_gt, ?Z.ltb_lt, ?Z.ltb_ge; nia. }
  assert (LT : forall a, (m * fst q + d <? m * a) = if 0 <=? d then fst q <? a else fst q <=? a).
  { intro a. destruct (Z.leb_spec 0 d); destruct (Z.ltb_spec (m * fst q + d) (m * a)); symmetry; rewrite ?Z.leb_le, ?Z.leb_gt, ?Z.ltb_lt, ?Z.ltb_ge; nia. }
  rewrite !LE, !LT. destruct (0 <=? d); reflexivity.
Qed.

Lemma zsuml_sum {T} (f g : T -> Z) l : zsuml (fun x => f x + g x) l = zsuml f l + zsuml g l.
Proof. induction l as [|x l IH]; [reflexivity|]. unfold zsuml in *. cbn [fold_right]. rewrite IH. ring. Qed.
Lemma zsuml_map {T U} (f : U -> Z) (h : T -> U) l : zsuml f (map h l) = zsuml (fun x => f (h x)) l.
Proof. induction l as [|x l IH]; [reflexivity|]. unfold zsuml in *. cbn [map fold_right]. rewrite IH. reflexivity. Qed.
Lemma zsuml_perm {T} (f : T -> Z) l l' : Permutation l l' -> zsuml f l = zsuml f l'.
Proof. unfold zsuml. induction 1; cbn [fold_right]; lia. Qed.
Lemma zsuml_opp {T} (f : T -> Z) l : zsuml (fun x => - f x) l = - zsuml f l.
Proof. induction l as [|x l IH]; [reflexivity|]. unfold zsuml in *. cbn [fold_right]. rewrite IH. ring. Qed.
Lemma around {T} (g : T -> Z) (l : list T) : zsuml (fun e => g (snd e) - g (fst e)) (Stokes.cyc l) = 0.
Proof.
  assert (E : zsuml (fun e => g (snd e) - g (fst e)) (Stokes.cyc l) = zsuml (fun e => g (snd e)) (Stokes.cyc l) + zsuml (fun e => - g (fst e)) (Stokes.cyc l)).
  { rewrite <- zsuml_sum. apply zsuml_ext. intros. ring. }
  rewrite E, zsuml_opp. rewrite <- (zsuml_map g snd), <- (zsuml_map g fst), cyc_fst, (zsuml_perm g _ _ (cyc_snd l)). ring.
Qed.

Lemma wind_near z c q x y m : (forall u w, In (u, w) (Stokes.cyc c) -> orient (z u) (z w) q <> 0 /\ Z.abs (drift (z u) (z w) q x y) < m) ->
  0 < m -> Z.abs (fst x + fst y - 2 * fst q) < m -> wind (fun v => scaled m (z v)) c (near m q x y) = wind z c q.
Proof.
  intros H M DX. unfold wind. destruct (Z.leb_spec 0 (fst x + fst y - 2 * fst q)) as [D|D].
  - apply zsuml_ext. intros [u w] I'. destruct (H u w I') as [O B]. cbn [fst snd]. rewrite cr_near by assumption. rewrite (proj2 (Z.leb_le _ _) D). reflexivity.
  - rewrite (zsuml_ext _ (fun e => cr (z (fst e)) (z (snd e)) q + (under q (z (snd e)) - under q (z (fst e))))).
    + rewrite zsuml_sum, (around (fun v => under q (z v))). ring.
    + intros [u w] I'. destruct (H u w I') as [O B]. cbn [fst snd]. rewrite cr_near by assumption. rewrite (proj2 (Z.leb_gt _ _) D). apply cr_cr'. exact O.
Qed.

(** a unit fine enough for all edges *)
Lemma fine_unit z (es : list (nat * nat)) q x y : exists B, 0 <= B /\ forall u w, In (u, w) es -> Z.abs (drift (z u) (z w) q x y) <= B.
Proof.
  induction es as [|[u w] es (B & P & H)]; [exists 0; split; [lia|intros ? ? []]|].
  exists (B + Z.abs (drift (z u) (z w) q x y)). split; [lia|]. intros u' w' [Q|I']; [injection Q as <- <-; lia|]. specialize (H u' w' I'). lia.
Qed.

(** ** a corner of a triangle that fills the region is on the border or inside *)
Theorem corner_in_region n z poly holes ids t v : fills_region n z poly holes ids -> general_position n z -> (forall c u, In c (poly :: holes) -> In u c -> (u < n)%nat) ->
  (forall c, In c (poly :: holes) -> NoDup c /\ (3 <= length c)%nat) ->
  In t (triples ids) -> corner v t -> (forall c, In c (poly :: holes) -> ~ In v c) ->
  wind z poly (z v) <> 0 /\ forall h, In h holes -> wind z h (z v) = 0.
Proof.
  intros (_ & TC & _ & IN & _) GP RG CN It Cv Nv.
  assert (R : exists x y, (v < n)%nat /\ 0 < orient (z v) (z x) (z y) /\ forall k p, strictly_inside (scaled k (z v)) (scaled k (z x)) (scaled k (z y)) p -> point_in z t k p).
  { destruct t as [[a b] c]. destruct (TC a b c It) as ((La & Lb & Lc) & O). unfold point_in, strictly_inside. destruct Cv as [->|[->| ->]].
    - exists b, c. split; auto.
    - exists c, a. split; auto. split; [rewrite orient_rot; auto|intros; tauto].
    - exists a, b. split; auto. split; [rewrite orient_rot'; auto|intros; tauto]. }
  destruct R as (x & y & Lv & O & PI). destruct (fine_unit z (flat_map Stokes.cyc (poly :: holes)) (z v) (z x) (z y)) as (B & B0 & HB).
  set (m := 3 + B + Z.abs (fst (z x) + fst (z y) - 2 * fst (z v))).
  destruct (IN t m (near m (z v) (z x) (z y)) It ltac:(unfold m; lia)) as [W1 W2]; [apply PI, near_inside; [unfold m; lia|exact O]|].
  assert (WE : forall c, In c (poly :: holes) -> wind (fun u => scaled m (z u)) c (near m (z v) (z x) (z y)) = wind z c (z v)).
  { intros c Ic. apply wind_near; [|unfold m; lia|unfold m; lia]. intros u w I'. split.
    - destruct (CN c Ic) as [ND L3]. pose proof (Stokes.cyc_ne c u w ND L3 I') as NE. pose proof I' as I2'. apply Stokes.cyc_in in I2' as [Iu Iw].
      apply GP; eauto; intros ->; exact (Nv c Ic ltac:(assumption)).
    - assert (Z.abs (drift (z u) (z w) (z v) (z x) (z y)) <= B) by (apply HB; apply in_flat_map; eauto). unfold m. lia. }
  rewrite WE in W1 by (left; reflexivity). split; [exact W1|]. intros h Ih. rewrite <- WE by (right; exact Ih). auto.
Qed.

(** ** forgetting points outside the region *)
Lemma forget_outside n n' z es poly holes ids : (n <= n')%nat -> proper_cdt n' z es poly holes ids -> general_position n' z ->
  (forall c u, In c (poly :: holes) -> In u c -> (u < n)%nat) -> (forall c, In c (poly :: holes) -> NoDup c /\ (3 <= length c)%nat) ->
  (forall v, (n <= v < n')%nat -> wind z poly (z v) = 0 \/ exists h, In h holes /\ wind z h (z v) <> 0) ->
  proper_cdt n z es poly holes ids.
Proof.
  intros LE (FR & CD & CF & NL) GP RG CN OUT.
  assert (IN : forall t v, In t (triples ids) -> corner v t -> (v < n')%nat -> (v < n)%nat).
  { intros t v It Cv Lv. destruct (Nat.lt_ge_cases v n) as [L|L]; auto. exfalso.
    destruct (corner_in_region n' z poly holes ids t v FR GP) as [W1 W2]; auto.
    - intros c u Ic Iu. specialize (RG c u Ic Iu). lia.
    - intros c Ic Iv. specialize (RG c v Ic Iv). lia.
    - destruct (OUT v ltac:(lia)) as [Q|(h & Ih & Q)]; [exact (W1 Q)|exact (Q (W2 h Ih))]. }
  split; [|split; [|split]].
  - destruct FR as (F1 & F2 & F3). split; [exact F1|]. split; [|exact F3]. intros a b c It. destruct (F2 a b c It) as ((La & Lb & Lc) & O). split; [|exact O].
    split; [|split]; apply (IN (a, b, c)); unfold corner; auto.
  - intros a b c v k p It Lv. apply CD; [exact It|lia].
  - exact CF.
  - intros v Lv H. apply NL; [lia|exact H].
Qed.
