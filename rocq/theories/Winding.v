(** * Winding: signed crossings of a downward ray; sums over the edges of a mesh *)
From Coq Require Import List Arith Bool Lia ZArith Psatz Permutation.
From Verif Require Import Base Num Shape ShapeSpec Triangles Sweeper Lists Exact Geom Mesh Rotate Legal.
Import ListNotations.
Local Open Scope Z_scope.

(** +1 if the edge u-v passes below p (or through it) from left to right, -1 if from right to left *)
Definition cr (u v p : zpt) : Z :=
  if (fst u <=? fst p) && (fst p <? fst v) then (if 0 <=? orient u v p then 1 else 0)
  else if (fst v <=? fst p) && (fst p <? fst u) then (if orient u v p <=? 0 then -1 else 0)
  else 0.
Lemma cr_anti u v p : cr v u p = - cr u v p.
Proof.
  unfold cr. rewrite (orient_swap u v p).
  destruct (Z.leb_spec (fst u) (fst p)), (Z.ltb_spec (fst p) (fst v)), (Z.leb_spec (fst v) (fst p)), (Z.ltb_spec (fst p) (fst u)); cbn [andb]; try lia;
  destruct (Z.leb_spec 0 (orient u v p)), (Z.leb_spec (orient u v p) 0), (Z.leb_spec 0 (- orient u v p)), (Z.leb_spec (- orient u v p) 0); lia.
Qed.
(** crossings of the boundary of a triangle *)
Definition wn3 (a b c p : zpt) : Z := cr a b p + cr b c p + cr c a p.
Lemma wn3_rot a b c p : wn3 b c a p = wn3 a b c p.
Proof. unfold wn3. lia. Qed.

(** barycentric identities *)
Lemma bary_x a b c p : orient a b p * (fst c - fst p) + orient b c p * (fst a - fst p) + orient c a p * (fst b - fst p) = 0.
Proof. zpts. ring. Qed.

(** strictly inside a counter-clockwise triangle; in it or on its boundary *)
Definition strictly_inside (a b c p : zpt) : Prop := 0 < orient a b p /\ 0 < orient b c p /\ 0 < orient c a p.
Definition inside_or_on (a b c p : zpt) : Prop := 0 <= orient a b p /\ 0 <= orient b c p /\ 0 <= orient c a p.

(** the x coordinates relative to p and the three orientations determine everything *)
Definition crx (x y o : Z) : Z :=
  if (x <=? 0) && (0 <? y) then (if 0 <=? o then 1 else 0) else if (y <=? 0) && (0 <? x) then (if o <=? 0 then -1 else 0) else 0.
Lemma cr_crx u v p : cr u v p = crx (fst u - fst p) (fst v - fst p) (orient u v p).
Proof.
  unfold cr, crx.
  assert (E1 : forall a b, (a - b <=? 0) = (a <=? b)) by (intros; destruct (Z.leb_spec (a - b) 0), (Z.leb_spec a b); auto; lia).
  assert (E2 : forall a b, (0 <? a - b) = (b <? a)) by (intros; destruct (Z.ltb_spec 0 (a - b)), (Z.ltb_spec b a); auto; lia).
  rewrite !E1, !E2. reflexivity.
Qed.
Lemma wn_cases x y z o1 o2 o3 : o1 * z + o2 * x + o3 * y = 0 -> 0 < o1 + o2 + o3 -> ~ (x = 0 /\ y = 0 /\ z = 0) ->
  let w := crx x y o1 + crx y z o2 + crx z x o3 in
  (w = 0 \/ w = 1) /\ (0 < o1 -> 0 < o2 -> 0 < o3 -> w = 1) /\ (w = 1 -> 0 <= o1 /\ 0 <= o2 /\ 0 <= o3).
Proof.
  intros B D NZ w.
  assert (H : forall x y z o1 o2 o3, o1 * z + o2 * x + o3 * y = 0 -> 0 < o1 + o2 + o3 -> x <= 0 -> 0 < y -> 0 < z ->
    let w := crx x y o1 + crx y z o2 + crx z x o3 in
    (w = 0 \/ w = 1) /\ (0 < o1 -> 0 < o2 -> 0 < o3 -> w = 1) /\ (w = 1 -> 0 <= o1 /\ 0 <= o2 /\ 0 <= o3)).
  { clear. intros x y z o1 o2 o3 B D X Y Z. unfold crx.
    rewrite (proj2 (Z.leb_le x 0)), (proj2 (Z.ltb_lt 0 y)), (proj2 (Z.ltb_lt 0 z)), (proj2 (Z.leb_gt y 0)), (proj2 (Z.leb_gt z 0)) by lia. cbn [andb].
    assert (K1 : o1 < 0 -> o3 <= 0 -> False). { intros. assert (0 < o2) by lia. assert (o1 * z < 0) by nia. assert (o3 * y <= 0) by nia. assert (o2 * x <= 0) by nia. lia. }
    assert (K2 : 0 <= o1 -> 0 < o3 -> 0 <= o2). { intros. destruct (Z.lt_ge_cases o2 0); auto. assert (0 <= o1 * z) by nia. assert (0 < o3 * y) by nia. assert (0 <= o2 * x) by nia. lia. }
    destruct (Z.leb_spec 0 o1), (Z.leb_spec o3 0); cbv zeta; repeat split; intros; try lia. all: destruct (K1 ltac:(lia) ltac:(lia)). }
  assert (H' : forall x y z o1 o2 o3, o1 * z + o2 * x + o3 * y = 0 -> 0 < o1 + o2 + o3 -> 0 < x -> y <= 0 -> z <= 0 ->
    let w := crx x y o1 + crx y z o2 + crx z x o3 in
    (w = 0 \/ w = 1) /\ (0 < o1 -> 0 < o2 -> 0 < o3 -> w = 1) /\ (w = 1 -> 0 <= o1 /\ 0 <= o2 /\ 0 <= o3)).
  { clear. intros x y z o1 o2 o3 B D X Y Z. unfold crx.
    rewrite (proj2 (Z.ltb_lt 0 x)), (proj2 (Z.leb_le y 0)), (proj2 (Z.leb_le z 0)), (proj2 (Z.leb_gt x 0)), (proj2 (Z.ltb_ge 0 y)), (proj2 (Z.ltb_ge 0 z)) by lia. cbn [andb].
    assert (K1 : o3 < 0 -> o1 <= 0 -> False). { intros. assert (0 < o2) by lia. assert (0 <= o1 * z) by nia. assert (0 <= o3 * y) by nia. assert (0 < o2 * x) by nia. lia. }
    assert (K2 : 0 <= o3 -> 0 < o1 -> 0 <= o2). { intros. destruct (Z.lt_ge_cases o2 0); auto. assert (o1 * z <= 0) by nia. assert (o3 * y <= 0) by nia. assert (o2 * x < 0) by nia. lia. }
    destruct (Z.leb_spec 0 o3), (Z.leb_spec o1 0); cbv zeta; repeat split; intros; try lia. all: destruct (K1 ltac:(lia) ltac:(lia)). }
  assert (R : forall x y z o1 o2 o3,
    (let w := crx x y o1 + crx y z o2 + crx z x o3 in (w = 0 \/ w = 1) /\ (0 < o1 -> 0 < o2 -> 0 < o3 -> w = 1) /\ (w = 1 -> 0 <= o1 /\ 0 <= o2 /\ 0 <= o3)) ->
    (let w := crx y z o2 + crx z x o3 + crx x y o1 in (w = 0 \/ w = 1) /\ (0 < o2 -> 0 < o3 -> 0 < o1 -> w = 1) /\ (w = 1 -> 0 <= o2 /\ 0 <= o3 /\ 0 <= o1))).
  { clear. cbv zeta. intros x y z o1 o2 o3 (R1 & R2 & R3). repeat split; intros; try lia. }
  unfold w. clear w. destruct (Z.le_gt_cases x 0), (Z.le_gt_cases y 0), (Z.le_gt_cases z 0).
  - unfold crx. rewrite (proj2 (Z.ltb_ge 0 x)), (proj2 (Z.ltb_ge 0 y)), (proj2 (Z.ltb_ge 0 z)) by lia. rewrite !andb_false_r. cbv zeta.
    split; [lia|]. split; [|lia]. intros. exfalso. apply NZ.
    assert (o1 * z <= 0) by nia. assert (o2 * x <= 0) by nia. assert (o3 * y <= 0) by nia.
    assert (o1 * z = 0) by lia. assert (o2 * x = 0) by lia. assert (o3 * y = 0) by lia.
    repeat split; nia.
  - apply (R z x y o3 o1 o2), H'; lia.
  - apply (R z x y o3 o1 o2), (R y z x o2 o3 o1), H'; lia.
  - apply H; lia.
  - apply H'; lia.
  - apply (R z x y o3 o1 o2), (R y z x o2 o3 o1), H; lia.
  - apply (R z x y o3 o1 o2), H; lia.
  - unfold crx. rewrite (proj2 (Z.leb_gt x 0)), (proj2 (Z.leb_gt y 0)), (proj2 (Z.leb_gt z 0)) by lia. cbn [andb]. cbv zeta.
    split; [lia|]. split; [|lia]. intros. exfalso.
    assert (0 < o1 * z) by nia. assert (0 < o2 * x) by nia. assert (0 < o3 * y) by nia. lia.
Qed.

Lemma wn3_ccw a b c p : 0 < orient a b c ->
  (wn3 a b c p = 0 \/ wn3 a b c p = 1) /\ (strictly_inside a b c p -> wn3 a b c p = 1) /\ (wn3 a b c p = 1 -> inside_or_on a b c p).
Proof.
  intros O. unfold wn3, strictly_inside, inside_or_on. rewrite !cr_crx.
  pose proof (bary_x a b c p) as B.
  assert (D : orient a b p + orient b c p + orient c a p = orient a b c) by (clear; zpts; ring).
  destruct (wn_cases (fst a - fst p) (fst b - fst p) (fst c - fst p) (orient a b p) (orient b c p) (orient c a p) B ltac:(lia)) as (H1 & H2 & H3).
  { intros (X & Y & Z). assert (orient a b c = 0); [|lia]. clear - X Y Z. zpts. nia. }
  split; [exact H1|]. split; [intros (? & ? & ?); auto|exact H3].
Qed.

(** ** sums over lists *)
Definition zsuml {X} (f : X -> Z) (l : list X) : Z := fold_right (fun x s => f x + s) 0 l.
Lemma zsuml_app {X} (f : X -> Z) l l' : zsuml f (l ++ l') = zsuml f l + zsuml f l'.
Proof. induction l as [|x l IH]; simpl; lia. Qed.
Lemma zsuml_perm {X} (f : X -> Z) l l' : Permutation l l' -> zsuml f l = zsuml f l'.
Proof. induction 1; simpl; lia. Qed.
Lemma zsuml_ext {X} (f g : X -> Z) l : (forall x, In x l -> f x = g x) -> zsuml f l = zsuml g l.
Proof. induction l as [|x l IH]; simpl; intro H; auto. rewrite (H x), IH; auto. Qed.
Lemma zsuml_map {X Y} (f : Y -> Z) (g : X -> Y) l : zsuml f (map g l) = zsuml (fun x => f (g x)) l.
Proof. induction l as [|x l IH]; simpl; lia. Qed.
Lemma zsuml_opp {X} (f : X -> Z) l : zsuml (fun x => - f x) l = - zsuml f l.
Proof. induction l as [|x l IH]; simpl; lia. Qed.
Lemma zsuml_scale {X} (f : X -> Z) k l : zsuml (fun x => k * f x) l = k * zsuml f l.
Proof. induction l as [|x l IH]; simpl; lia. Qed.
Lemma zsuml_filter {X} (f : X -> Z) q l : zsuml f l = zsuml f (filter q l) + zsuml f (filter (fun x => negb (q x)) l).
Proof. induction l as [|x l IH]; simpl; auto. destruct (q x); simpl; lia. Qed.
Lemma zsuml_flat_map {X Y} (f : Y -> Z) (g : X -> list Y) l : zsuml f (flat_map g l) = zsuml (fun x => zsuml f (g x)) l.
Proof. induction l as [|x l IH]; simpl; auto. rewrite zsuml_app. lia. Qed.
Lemma zsuml_01 {X} (f : X -> Z) l : (forall x, In x l -> f x = 0 \/ f x = 1) -> 0 <= zsuml f l /\
  (forall x, In x l -> f x <= zsuml f l) /\ (0 < zsuml f l -> exists x, In x l /\ f x = 1).
Proof.
  induction l as [|y l IH]; intro H.
  { simpl. repeat split; try lia; intros; try contradiction; lia. }
  destruct IH as (H1 & H2 & H3); [intros; apply H; simpl; auto|]. pose proof (H y (or_introl eq_refl)) as HY. cbn [zsuml fold_right]. fold (zsuml f l).
  split; [lia|]. split.
  - intros x [<-|IN]; [lia|]. specialize (H2 x IN). lia.
  - intro G. destruct HY as [Y|Y]; [|exists y; simpl; auto]. destruct H3 as (x & IN & Q); [lia|]. exists x; simpl; auto.
Qed.
Lemma zsuml_two {X} (f : X -> Z) l x y : (forall x, In x l -> f x = 0 \/ f x = 1) -> NoDup l -> zsuml f l <= 1 -> In x l -> In y l -> f x = 1 -> f y = 1 -> x = y.
Proof.
  intros H ND S1 IX IY FX FY. induction l as [|z l IH]; [contradiction|]. inversion ND as [|? ? Nz ND']; subst.
  assert (H' : forall x, In x l -> f x = 0 \/ f x = 1) by (intros; apply H; simpl; auto).
  destruct (zsuml_01 f l H') as (P1 & P2 & _). cbn [zsuml fold_right] in S1. fold (zsuml f l) in S1. pose proof (H z (or_introl eq_refl)) as HZ.
  destruct IX as [->|IX], IY as [->|IY]; auto.
  - specialize (P2 y IY). lia.
  - specialize (P2 x IX). lia.
  - apply IH; auto. lia.
Qed.

Lemma NoDup_map_in {X Y} (h : X -> Y) l : (forall x y, In x l -> In y l -> h x = h y -> x = y) -> NoDup l -> NoDup (map h l).
Proof.
  induction l as [|x l IH]; intros H ND; [constructor|]. inversion ND as [|? ? Nx ND']; subst. simpl. constructor.
  - rewrite in_map_iff. intros (y & Q & Iy). apply Nx. rewrite (H x y); simpl; auto.
  - apply IH; auto. intros; apply H; simpl; auto.
Qed.
(** terms of opposite sign paired by an involution without fixed points cancel *)
Lemma zsuml_cancel {X} (dec : forall x y : X, {x = y} + {x <> y}) (f : X -> Z) (g : X -> option X) l : NoDup l ->
  (forall x y, In x l -> g x = Some y -> In y l /\ g y = Some x /\ f y = - f x) ->
  zsuml f l = zsuml f (filter (fun x => match g x with None => true | Some _ => false end) l).
Proof.
  intros ND H. rewrite (zsuml_filter f (fun x => match g x with None => true | Some _ => false end) l).
  set (m := filter (fun x => negb _) l).
  set (h := fun x => match g x with Some y => y | None => x end).
  assert (Hm : forall x, In x m <-> In x l /\ exists y, g x = Some y).
  { intro x. unfold m. rewrite filter_In. split; intros [P Q]; split; auto; [destruct (g x); simpl in Q; [eauto|discriminate]|destruct Q as [y ->]; auto]. }
  assert (K : Permutation (map h m) m).
  { apply NoDup_Permutation.
    - apply NoDup_map_in; [|apply NoDup_filter; auto].
      intros x y Ix Iy Q. apply Hm in Ix as [Ix [x' X']], Iy as [Iy [y' Y']]. unfold h in Q. rewrite X', Y' in Q. subst y'.
      destruct (H x x' Ix X') as (_ & A1 & _), (H y x' Iy Y') as (_ & A2 & _). congruence.
    - apply NoDup_filter; auto.
    - intro y. rewrite in_map_iff. split.
      + intros (x & Q & Ix). apply Hm in Ix as [Ix [x' X']]. unfold h in Q. rewrite X' in Q. subst x'.
        destruct (H x y Ix X') as (A1 & A2 & _). apply Hm. eauto.
      + intro Iy. apply Hm in Iy as [Iy [x Y']]. destruct (H y x Iy Y') as (A1 & A2 & _). exists x. split; [unfold h; rewrite A2; auto|].
        apply Hm. eauto. }
  apply (zsuml_perm f) in K. rewrite zsuml_map in K.
  assert (Q : zsuml (fun x => f (h x)) m = - zsuml f m).
  { rewrite <- zsuml_opp. apply zsuml_ext. intros x Ix. apply Hm in Ix as [Ix [x' X']]. unfold h. rewrite X'. apply (H x x' Ix X'). }
  lia.
Qed.
