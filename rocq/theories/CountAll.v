(** * CountAll: the number of triangles of a conforming triangulation of a polygon with holes *)
From Coq Require Import List Arith Bool Lia ZArith Psatz Permutation.
From Verif Require Import Base Lists Exact Geom Legal Winding Disc Stokes CoverRun Region PropsTri PropsCdt Hopf Fan Count HoleWind.
Import ListNotations.
Local Open Scope Z_scope.

Lemma cyc_rot1 {X} (a : X) l : l <> [] -> Permutation (cyc (a :: l)) (cyc (l ++ [a])).
Proof.
  destruct l as [|b l]; [congruence|]. intros _.
  assert (E : forall (l : list X) x, combine (x :: l ++ [a]) ((l ++ [a]) ++ [b]) = combine (x :: l) (l ++ [a]) ++ [(a, b)]).
  { induction l0 as [|y l0 IH]; intro x; [reflexivity|]. cbn [app combine]. f_equal. exact (IH y). }
  change (cyc ((b :: l) ++ [a])) with (combine (b :: l ++ [a]) ((l ++ [a]) ++ [b])). change (cyc (a :: b :: l)) with ((a, b) :: combine (b :: l) (l ++ [a])). rewrite E. apply Permutation_cons_append.
Qed.
Lemma cyc_rot {X} (l l' : list X) : Permutation (cyc (l ++ l')) (cyc (l' ++ l)).
Proof.
  revert l'. induction l as [|a l IH]; intro l'; [rewrite app_nil_r; reflexivity|]. cbn [app]. destruct (l ++ l') as [|b m] eqn:E.
  - apply app_eq_nil in E as [-> ->]. reflexivity.
  - rewrite <- E. etransitivity; [apply cyc_rot1; rewrite E; discriminate|]. rewrite <- app_assoc. rewrite (IH (l' ++ [a])). rewrite <- app_assoc. reflexivity.
Qed.
Lemma flat_map_id' {X} (l : list (list X)) : flat_map (fun x => x) l = concat l.
Proof. induction l as [|a l IH]; [reflexivity|]. cbn [flat_map concat]. rewrite IH. reflexivity. Qed.
Lemma nodup_l {X} (a b : list X) : NoDup (a ++ b) -> NoDup a.
Proof. induction a as [|x a IH]; [constructor|]. cbn [app]. intro H. inversion H as [|? ? N1 N2]; subst. constructor; auto. intro J. apply N1, in_or_app. auto. Qed.
Lemma nodup_r {X} (a b : list X) : NoDup (a ++ b) -> NoDup b.
Proof. induction a as [|x a IH]; auto. cbn [app]. intro H. inversion H; auto. Qed.
Lemma least_elt (f : nat -> Z) (c : list nat) : c <> [] -> exists v, In v c /\ forall x, In x c -> f v <= f x.
Proof.
  induction c as [|a c IH]; [congruence|]. intros _. destruct c as [|b c].
  - exists a. split; [left; auto|]. intros x [<-|[]]. lia.
  - destruct (IH ltac:(discriminate)) as (v & Iv & H). destruct (Z_le_gt_dec (f a) (f v)).
    + exists a. split; [left; auto|]. intros x [<-|I']; [lia|]. specialize (H x I'). lia.
    + exists v. split; [right; auto|]. intros x [<-|I']; [lia|]. auto.
Qed.

Section All.
Variable n : nat.
Variable z : nat -> zpt.
Variable tris : list (nat * nat * nat).
Hypothesis GPd : forall i j, (i < n)%nat -> (j < n)%nat -> i <> j -> z i <> z j.
Hypothesis GPo : forall i j k, (i < n)%nat -> (j < n)%nat -> (k < n)%nat -> i <> j -> j <> k -> i <> k -> orient (z i) (z j) (z k) <> 0.
Hypothesis TC : forall a b c, In (a, b, c) tris -> (a < n /\ b < n /\ c < n)%nat /\ 0 < orient (z a) (z b) (z c).
Hypothesis TO : forall i j t u k p, 0 < k -> nth_error tris i = Some t -> nth_error tris j = Some u -> point_in z t k p -> point_in z u k p -> i = j.
Variable es : list (nat * nat).
Variable cs : list (list nat).
Hypothesis CE : forall x y, In (x, y) es -> exists i t, nth_error tris i = Some t /\ joins t x y /\ forall j u, nth_error tris j = Some u -> joins u x y -> j = i.
Hypothesis CI : forall i t x y, nth_error tris i = Some t -> In (x, y) (sides t) -> ~ In (x, y) es -> ~ In (y, x) es ->
  exists j u, nth_error tris j = Some u /\ In (y, x) (sides u) /\ j <> i /\ forall j' u', nth_error tris j' = Some u' -> joins u' x y -> j' = i \/ j' = j.
Hypothesis C3 : forall c, In c cs -> (3 <= length c)%nat.
Hypothesis CN : NoDup (concat cs).
Hypothesis CB : forall c v, In c cs -> In v c -> (v < n)%nat.
Hypothesis ES : forall x y, In (x, y) es <-> exists c, In c cs /\ In (x, y) (cyc c).
Hypothesis AP : forall e e', In e es -> In e' es ->
  ~ (orient (z (fst e)) (z (snd e)) (z (fst e')) * orient (z (fst e)) (z (snd e)) (z (snd e')) < 0 /\
     orient (z (fst e')) (z (snd e')) (z (fst e)) * orient (z (fst e')) (z (snd e')) (z (snd e)) < 0).
Notation mid := (Count.mid n z tris).
Notation LL := (Count.LL n z).
Notation left := (Count.left tris).

Lemma concat_nodup (l : list (list nat)) c : NoDup (concat l) -> In c l -> NoDup c.
Proof.
  induction l as [|a l IH]; [intros _ []|]. cbn [concat]. intros H [<-|I'].
  - apply nodup_l in H. exact H.
  - apply IH; auto. apply nodup_r in H. exact H.
Qed.
Lemma concat_disj (l : list (list nat)) c c' v : NoDup (concat l) -> In c l -> In c' l -> In v c -> In v c' -> c = c'.
Proof.
  induction l as [|a l IH]; [intros _ []|]. cbn [concat]. intros H A B Vc Vc'.
  assert (D : forall x, In x a -> In x (concat l) -> False).
  { clear - H. induction a as [|y a IH']; [intros x []|]. cbn [app] in H. inversion H as [|? ? N1 N2]; subst. intros x [<-|I'] J; [apply N1, in_or_app; auto|apply (IH' N2 x I' J)]. }
  destruct A as [<-|A], B as [<-|B]; auto.
  - exfalso. apply (D v Vc). apply in_concat. eauto.
  - exfalso. apply (D v Vc'). apply in_concat. eauto.
  - apply IH; auto. apply nodup_r in H. exact H.
Qed.

(** one contour: the sum, and its first vertex *)
Lemma contour_mid c : In c cs -> exists v p w, In v c /\ (forall x, In x c -> x <> v -> LL v < LL x) /\
  zsuml mid c = Z.of_nat (length c) + 2 * (mid v - 1) /\
  In (p, v) (cyc c) /\ In (v, w) (cyc c) /\ p <> w /\
  ((left v w /\ left p v /\ mid v = 1 - Z.sgn (orient (z v) (z w) (z p))) \/ (left w v /\ left v p /\ mid v = 1 - Z.sgn (orient (z v) (z p) (z w)))).
Proof using All.
  intro Ic. pose proof (C3 c Ic) as L3. pose proof (concat_nodup cs c CN Ic) as ND.
  destruct (least_elt LL c) as (v & Iv & MN); [destruct c; [cbn in L3; lia|discriminate]|]. destruct (in_split _ _ Iv) as (l & l' & E).
  set (d := (v :: l') ++ l).
  assert (PC : Permutation c d) by (rewrite E; apply Permutation_app_comm).
  assert (PE : Permutation (cyc c) (cyc d)) by (rewrite E; apply cyc_rot).
  assert (M1 : forall x, In x c -> x <> v -> LL v < LL x).
  { intros x Ix N. pose proof (MN x Ix). pose proof (LL_ne n z GPd x v (CB c x Ic Ix) (CB c v Ic Iv) N). lia. }
  assert (D3 : (3 <= length d)%nat) by (rewrite <- (Permutation_length PC); exact L3).
  assert (DN : NoDup d) by (exact (Permutation_NoDup PC ND)).
  assert (DI : forall x, In x d <-> In x c) by (intro x; split; apply Permutation_in; [symmetry|]; exact PC).
  assert (DE : forall e, In e (cyc d) <-> In e (cyc c)) by (intro x; split; apply Permutation_in; [symmetry|]; exact PE).
  assert (RB : forall x, In x d -> (x < n)%nat) by (intros x Ix; apply (CB c x Ic); apply DI; exact Ix).
  assert (R1 : forall x y, In (x, y) (cyc d) -> In (x, y) es) by (intros x y H; apply ES; exists c; split; auto; apply DE; exact H).
  assert (R2 : forall u x, In u d -> In (u, x) es -> In (u, x) (cyc d)).
  { intros u x Iu H. apply ES in H as (c' & Ic' & H). apply DE. replace c with c'; auto. destruct (Stokes.cyc_in _ _ _ H) as [J _]. apply (concat_disj cs c' c u CN Ic' Ic J). apply DI; exact Iu. }
  assert (R3 : forall u x, In u d -> In (x, u) es -> In (x, u) (cyc d)).
  { intros u x Iu H. apply ES in H as (c' & Ic' & H). apply DE. replace c with c'; auto. destruct (Stokes.cyc_in _ _ _ H) as [_ J]. apply (concat_disj cs c' c u CN Ic' Ic J). apply DI; exact Iu. }
  assert (MD : forall x, In x d -> x <> hd 0%nat d -> LL (hd 0%nat d) < LL x) by (intros x Ix; cbn [d app hd]; apply M1; apply DI; exact Ix).
  pose proof (ring_mid n z tris GPd GPo TC TO es cs CE CI C3 CN CB ES AP d D3 DN RB R1 R2 R3 MD) as RM.
  destruct (first_turn n z tris GPd GPo TC TO es cs CE CI C3 CN CB ES AP d D3 DN RB R1 R2 R3 MD) as (p & w & F1 & F2 & F3 & F4 & F5 & F6).
  change (hd 0%nat d) with v in *. exists v, p, w. split; auto. split; auto. split.
  - rewrite (zsuml_perm _ _ _ PC), (Permutation_length PC). exact RM.
  - split; [apply DE; exact F1|]. split; [apply DE; exact F2|]. split; auto.
Qed.

(** the triangles lie in the polygon and outside the holes *)
Variable poly : list nat.
Variable holes : list (list nat).
Hypothesis CS : cs = poly :: holes.
Hypothesis REG : forall t k p, In t tris -> 0 < k -> point_in z t k p ->
  wind (fun v => scaled k (z v)) poly p <> 0 /\ forall h, In h holes -> wind (fun v => scaled k (z v)) h p = 0.

Lemma first_before c v : In c cs -> In v c -> (forall x, In x c -> x <> v -> LL v < LL x) -> forall x, In x c -> x <> v -> before (z v) (z x).
Proof using CB. intros Ic Iv M x Ix N. apply (ell_xlt n z v x (CB c v Ic Iv) (CB c x Ic Ix) (M x Ix N)). Qed.

Lemma poly_first v : In v poly -> (forall x, In x poly -> x <> v -> LL v < LL x) -> mid v <> 2.
Proof using All.
  intros Iv M E. assert (Ip : In poly cs) by (rewrite CS; left; reflexivity). pose proof (CB poly v Ip Iv) as Lv.
  pose proof (fan_at n z tris GPd TC TO v) as F. unfold Count.mid in E. rewrite mids_ud in E.
  destruct (ups _ _ _ F) as [[U _]|[_ (a & b & Iab & Pa & Nb)]].
  { destruct (dns _ _ _ F) as [[D _]|[D _]]; lia. }
  clear E. apply secs_in in Iab as (t & It & Q). destruct (sec_spec n z tris TC t v a b It Q) as ((_ & La & Lb) & O & N1 & N2 & N3 & _ & _ & PI).
  unfold lpv in Pa, Nb. pose proof (ell_xlt n z v a Lv La ltac:(lia)) as Ba. pose proof (ell_xlt n z b v Lb Lv ltac:(lia)) as Bb.
  assert (LT : fst (z b) < fst (z v)).
  { destruct Bb as [|[E1 E2]]; auto. exfalso. revert O. rewrite orient_vx. unfold vx, vsub. cbn [fst snd]. rewrite E1, Z.sub_diag, Z.mul_0_r, Z.sub_0_r.
    assert (0 <= fst (z a) - fst (z v)) by (destruct Ba as [|[? _]]; lia). nia. }
  set (K := Z.abs (fst (z a) - fst (z v)) + 1). set (d := comb K (vsub (z b) (z v)) (vsub (z a) (z v))).
  assert (Dn : fst d < 0) by (unfold d, comb, vsub; cbn [fst snd]; unfold K; nia).
  assert (D1 : 0 < vx (vsub (z a) (z v)) d) by (unfold d; rewrite vx_comb_r, vx_same, <- orient_vx; unfold K; nia).
  assert (D2 : 0 < vx d (vsub (z b) (z v))) by (unfold d; rewrite vx_comb_l, vx_same, <- orient_vx; lia).
  set (k := vx (vsub (z a) (z v)) d + vx d (vsub (z b) (z v)) + 1).
  destruct (REG t k (k * fst (z v) + fst d, k * snd (z v) + snd d) It ltac:(unfold k; lia)) as [W _].
  - apply PI. apply dir_in; auto. unfold k. lia.
  - apply W. apply wind_outside. left. intros x Ix. unfold scaled. cbn [fst]. assert (k0 : 0 < k) by (unfold k; lia). clearbody k.
    assert (fst (z v) <= fst (z x)). { destruct (Nat.eq_dec x v) as [->|N]; [lia|]. destruct (ell_xlt n z v x Lv (CB poly x Ip Ix) (M x Ix N)) as [|[? _]]; lia. } nia.
Qed.

(** a direction inside the triangle at v that starts along v-a, as close to v-a as wished *)
Lemma start_dir v a (u : zpt) : left v a -> 0 < vx (vsub (z a) (z v)) u -> exists t d, In t tris /\ 0 < vx (vsub (z a) (z v)) d /\ 0 < vx d u /\
  ev (fun k => point_in z t k (step (z v) d k)).
Proof using TC.
  intros (t & It & Q) U. destruct (side_sec n z tris TC t v a It Q) as [[b S1] _]. destruct (sec_spec n z tris TC t v a b It S1) as (_ & O & _ & _ & _ & _ & _ & PI).
  rewrite orient_vx in O.
  set (K := Z.abs (vx (vsub (z b) (z v)) u) + 1). set (d := comb K (vsub (z a) (z v)) (vsub (z b) (z v))). exists t, d. split; auto.
  assert (D1 : 0 < vx (vsub (z a) (z v)) d) by (unfold d; rewrite vx_comb_r, vx_same; lia).
  assert (D2 : 0 < vx d (vsub (z b) (z v))) by (unfold d; rewrite vx_comb_l, vx_same; unfold K; nia).
  split; auto. split; [unfold d; rewrite vx_comb_l; unfold K; nia|].
  exists (vx (vsub (z a) (z v)) d + vx d (vsub (z b) (z v)) + 1). intros k L. apply PI. apply dir_in; [rewrite orient_vx; exact O|exact D1|exact D2|]. lia.
Qed.
Lemma hole_first h v p w : In h holes -> In v h -> (forall x, In x h -> x <> v -> LL v < LL x) -> In (p, v) (cyc h) -> In (v, w) (cyc h) ->
  (left v w /\ 0 < orient (z v) (z w) (z p)) \/ (left v p /\ 0 < orient (z v) (z p) (z w)) -> False.
Proof using All.
  intros Ih Iv M E1 E2 H. assert (Ic : In h cs) by (rewrite CS; right; exact Ih). pose proof (concat_nodup cs h CN Ic) as ND. pose proof (C3 h Ic) as L3.
  pose proof (first_before h v Ic Iv M) as FB.
  destruct H as [[L O]|[L O]]; destruct (start_dir v _ _ L ltac:(rewrite <- orient_vx; exact O)) as (t & d & It & D1 & D2 & PI).
  - destruct (ev_and _ _ PI (corner_wind_l z h v p w L3 ND E1 E2 FB d O D1 D2)) as [k K]. destruct (K k (Z.le_refl k)) as (A & B & W).
    apply W. apply (REG t k _ It B A). exact Ih.
  - destruct (ev_and _ _ PI (corner_wind_r z h v p w L3 ND E1 E2 FB d O D1 D2)) as [k K]. destruct (K k (Z.le_refl k)) as (A & B & W).
    apply W. apply (REG t k _ It B A). exact Ih.
Qed.

Lemma sgn_cases x : x <> 0 -> Z.sgn x = 1 /\ 0 < x \/ Z.sgn x = -1 /\ x < 0.
Proof. intro. destruct x; cbn; [lia|left|right]; lia. Qed.
Lemma poly_mid : zsuml mid poly = Z.of_nat (length poly) - 2.
Proof using All.
  assert (Ip : In poly cs) by (rewrite CS; left; reflexivity). pose proof (concat_nodup cs poly CN Ip) as ND. pose proof (C3 poly Ip) as L3.
  destruct (contour_mid poly Ip) as (v & p & w & Iv & M & E & E1 & E2 & NE & H). pose proof (poly_first v Iv M) as N2.
  destruct (Stokes.cyc_in _ _ _ E1) as [Jp _]. destruct (Stokes.cyc_in _ _ _ E2) as [_ Jw]. pose proof (cyc_ne poly _ _ ND L3 E1) as D1. pose proof (cyc_ne poly _ _ ND L3 E2) as D2.
  pose proof (CB poly _ Ip Iv) as Lv. pose proof (CB poly _ Ip Jp) as Lp. pose proof (CB poly _ Ip Jw) as Lw. rewrite E. destruct H as [(_ & _ & H)|(_ & _ & H)]; rewrite H in N2 |- *.
  - destruct (sgn_cases (orient (z v) (z w) (z p))) as [[-> _]|[X _]]; [apply GPo; auto| |rewrite X in N2]; lia.
  - destruct (sgn_cases (orient (z v) (z p) (z w))) as [[-> _]|[X _]]; [apply GPo; auto| |rewrite X in N2]; lia.
Qed.
Lemma hole_mid h : In h holes -> zsuml mid h = Z.of_nat (length h) + 2.
Proof using All.
  intro Ih. assert (Ic : In h cs) by (rewrite CS; right; exact Ih). pose proof (concat_nodup cs h CN Ic) as ND. pose proof (C3 h Ic) as L3.
  destruct (contour_mid h Ic) as (v & p & w & Iv & M & E & E1 & E2 & NE & H). pose proof (hole_first h v p w Ih Iv M E1 E2) as HF.
  destruct (Stokes.cyc_in _ _ _ E1) as [Jp _]. destruct (Stokes.cyc_in _ _ _ E2) as [_ Jw]. pose proof (cyc_ne h _ _ ND L3 E1) as D1. pose proof (cyc_ne h _ _ ND L3 E2) as D2.
  pose proof (CB h _ Ic Iv) as Lv. pose proof (CB h _ Ic Jp) as Lp. pose proof (CB h _ Ic Jw) as Lw. rewrite E. destruct H as [(H1 & _ & H)|(_ & H1 & H)]; rewrite H.
  - destruct (sgn_cases (orient (z v) (z w) (z p))) as [[_ X]|[-> _]]; [apply GPo; auto| |lia]. exfalso. apply HF. left. auto.
  - destruct (sgn_cases (orient (z v) (z p) (z w))) as [[_ X]|[-> _]]; [apply GPo; auto| |lia]. exfalso. apply HF. right. auto.
Qed.

(** the count *)
Theorem count_triangles (inner : list nat) : NoDup inner ->
  (forall v, In v inner <-> (v < n)%nat /\ (forall c, In c (poly :: holes) -> ~ In v c) /\ exists t, In t tris /\ corner v t) ->
  Z.of_nat (length tris) = Z.of_nat (length poly) - 2 + zsuml (fun h => Z.of_nat (length h) + 2) holes + 2 * Z.of_nat (length inner).
Proof using All.
  intros NI HI. rewrite <- CS in HI. rewrite <- (mid_total n z tris GPd TC), <- zsum_seq.
  set (onc := fun v => if in_dec Nat.eq_dec v (concat cs) then true else false).
  rewrite (zsuml_filter _ onc (seq 0 n)).
  assert (P1 : Permutation (filter onc (seq 0 n)) (concat cs)).
  { apply NoDup_Permutation; [apply NoDup_filter, seq_NoDup|exact CN|]. intro v. rewrite filter_In, in_seq. unfold onc. destruct (in_dec _ v (concat cs)) as [J|J]; split; intro H; try tauto; try (destruct H; discriminate).
    split; auto. apply in_concat in J as (c & Ic & Iv). pose proof (CB c v Ic Iv). lia. }
  rewrite (zsuml_perm _ _ _ P1), <- flat_map_id', zsuml_flat_map, CS. cbn [zsuml fold_right]. fold (zsuml (fun x => zsuml mid x) holes). rewrite poly_mid.
  rewrite (zsuml_ext (fun x => zsuml mid x) (fun h => Z.of_nat (length h) + 2) holes) by (intros h Ih; apply hole_mid; exact Ih).
  assert (LO : zsuml mid (filter (fun v => negb (onc v)) (seq 0 n)) = 2 * Z.of_nat (length inner)).
  { set (l := filter (fun v => negb (onc v)) (seq 0 n)).
    assert (IL : forall v, In v l <-> (v < n)%nat /\ forall c, In c cs -> ~ In v c).
    { intro v. unfold l. rewrite filter_In, in_seq. unfold onc. destruct (in_dec _ v (concat cs)) as [J|J]; cbn [negb]; split.
      - intros [_ X]; discriminate.
      - intros [_ X]. exfalso. apply in_concat in J as (c & Ic & Iv). exact (X c Ic Iv).
      - intros [X _]. split; [lia|]. intros c Ic Iv. apply J. apply in_concat. eauto.
      - intros [X _]. split; auto. lia. }
    set (used := fun v => existsb (fun t => match sec t v with Some _ => true | None => false end) tris).
    assert (P2 : Permutation (filter used l) inner).
    { apply NoDup_Permutation; [apply NoDup_filter, NoDup_filter, seq_NoDup|exact NI|]. intro v. rewrite filter_In, IL, HI. unfold used.
      assert (X : existsb (fun t => match sec t v with Some _ => true | None => false end) tris = true <-> exists t, In t tris /\ corner v t).
      { rewrite existsb_exists. split; intros (t & It & Q); exists t; split; auto; destruct t as [[x y] w]; unfold sec, corner in *;
        destruct (Nat.eqb_spec x v), (Nat.eqb_spec y v), (Nat.eqb_spec w v); auto; try discriminate; intuition congruence. }
      rewrite X. tauto. }
    rewrite (zsuml_ext _ (fun v => if used v then 2 else 0)).
    - rewrite <- (Permutation_length P2). clear. induction l as [|v l IH]; [reflexivity|]. cbn [zsuml fold_right filter]. fold (zsuml (fun v => if used v then 2 else 0) l). rewrite IH. destruct (used v); cbn [length]; lia.
    - intros v Iv. apply IL in Iv as [_ NV]. exact (mid_loose n z tris GPd TC TO es cs CI ES v NV). }
  rewrite LO. lia.
Qed.
End All.
