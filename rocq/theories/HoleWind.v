(** * HoleWind: the winding number next to the leftmost vertex of a polygon *)
From Coq Require Import List Arith Bool Lia ZArith Psatz Permutation.
From Verif Require Import Base Lists Exact Geom Legal Winding Disc Stokes CoverRun Region PropsTri PropsCdt Hopf Fan Count.
Import ListNotations.
Local Open Scope Z_scope.

(** true for all large k *)
Definition ev (Q : Z -> Prop) : Prop := exists k0, forall k, k0 <= k -> Q k.
Lemma ev_and (P Q : Z -> Prop) : ev P -> ev Q -> ev (fun k => P k /\ Q k).
Proof. intros [a A] [b B]. exists (Z.max a b). intros k L. split; [apply A|apply B]; lia. Qed.
Lemma ev_list {X} (Q : X -> Z -> Prop) (l : list X) : (forall x, In x l -> ev (Q x)) -> ev (fun k => forall x, In x l -> Q x k).
Proof.
  induction l as [|a l IH]; intro H.
  - exists 0. intros k _ x [].
  - destruct (ev_and _ _ (H a (or_introl eq_refl)) (IH (fun x I' => H x (or_intror I')))) as [k0 K]. exists k0. intros k L x [<-|I']; [exact (proj1 (K k L))|exact (proj2 (K k L) x I')].
Qed.
Lemma ev_mono (P Q : Z -> Prop) : (forall k, P k -> Q k) -> ev P -> ev Q.
Proof. intros H [k0 K]. exists k0. auto. Qed.
Lemma ev_gt x : ev (fun k => x < k). Proof. exists (x + 1). lia. Qed.

(** v comes before x, from left to right and from below *)
Definition before (v x : zpt) : Prop := fst v < fst x \/ (fst v = fst x /\ snd v < snd x).
(** the point next to v in direction d, in units of 1/k *)
Definition step (v d : zpt) (k : Z) : zpt := (k * fst v + fst d, k * snd v + snd d).

Lemma step_orient v x y d k : orient (scaled k x) (scaled k y) (step v d k) = k * (k * orient x y v + vx (vsub y x) d).
Proof. unfold step, scaled, vx, vsub. zpts. ring. Qed.
Lemma orient_self v a : orient v a v = 0. Proof. zpts. ring. Qed.
Lemma orient_expand x y v : orient x y v = (fst y - fst x) * (snd v - snd x) - (snd y - snd x) * (fst v - fst x). Proof. zpts. ring. Qed.

Section W.
Variables v a b d : zpt.
Hypothesis Ba : before v a.
Hypothesis Bb : before v b.
Hypothesis O : 0 < orient v a b.
Hypothesis D1 : 0 < vx (vsub a v) d.
Hypothesis D2 : 0 < vx d (vsub b v).
Lemma a_right : fst v < fst a.
Proof using Ba Bb O.
  destruct Ba as [|[E L]]; auto. exfalso. revert O. rewrite orient_vx. unfold vx, vsub. cbn [fst snd].
  assert (0 <= fst b - fst v) by (destruct Bb as [|[? _]]; lia). replace (fst a - fst v) with 0 by lia. nia.
Qed.
Lemma d_right : 0 < fst d.
Proof using All.
  pose proof a_right as A. assert (B' : 0 <= fst b - fst v) by (destruct Bb as [|[? _]]; lia). rewrite orient_vx in O.
  assert (E : fst d * vx (vsub a v) (vsub b v) = (fst a - fst v) * vx d (vsub b v) + (fst b - fst v) * vx (vsub a v) d) by (unfold vx, vsub; cbn [fst snd]; ring).
  assert (0 < (fst a - fst v) * vx d (vsub b v)) by (apply Z.mul_pos_pos; lia). assert (0 <= (fst b - fst v) * vx (vsub a v) d) by (apply Z.mul_nonneg_nonneg; lia). nia.
Qed.
Lemma cr_lower : ev (fun k => 0 < k /\ cr (scaled k v) (scaled k a) (step v d k) = 1).
Proof using All.
  pose proof a_right as A. pose proof d_right as R. exists (fst d + 1). intros k L. split; [lia|]. unfold cr. rewrite step_orient.
  rewrite orient_self, Z.mul_0_r, Z.add_0_l. unfold step, scaled. cbn [fst snd].
  rewrite (proj2 (Z.leb_le _ _)), (proj2 (Z.ltb_lt _ _)) by nia. cbn [andb]. rewrite (proj2 (Z.leb_le _ _)) by nia. reflexivity.
Qed.
Lemma cr_upper : ev (fun k => cr (scaled k v) (scaled k b) (step v d k) = 0).
Proof using All.
  pose proof d_right as R. exists 1. intros k L. unfold cr. rewrite step_orient.
  rewrite orient_self, Z.mul_0_r, Z.add_0_l. rewrite (vx_anti d) . unfold step, scaled. cbn [fst snd].
  rewrite (proj2 (Z.leb_le (k * fst v) _)), (proj2 (Z.ltb_ge _ (k * fst v))) by lia. rewrite andb_false_r.
  rewrite (proj2 (Z.leb_gt 0 _)) by nia. destruct (_ && _); reflexivity.
Qed.
Lemma cr_half x y : before v x -> before v y -> fst v = fst x -> ev (fun k => cr (scaled k x) (scaled k y) (step v d k) = 0).
Proof using All.
  intros Bx By E. pose proof d_right as R. destruct By as [Ly|[Ey _]].
  - exists (Z.abs (vx (vsub y x) d) + 1). intros k L. unfold cr. rewrite step_orient.
    assert (On : orient x y v < 0).
    { destruct Bx as [|[_ Lx]]; [lia|]. rewrite orient_expand. rewrite E. nia. }
    rewrite (proj2 (Z.leb_gt 0 _)) by nia. unfold step, scaled. cbn [fst snd]. destruct (_ && _); auto. rewrite (proj2 (Z.ltb_ge _ (k * fst x))), andb_false_r by nia. reflexivity.
  - exists 1. intros k L. unfold cr, step, scaled. cbn [fst snd]. rewrite (proj2 (Z.ltb_ge _ (k * fst x))), (proj2 (Z.ltb_ge _ (k * fst y))), !andb_false_r by nia. reflexivity.
Qed.
Lemma cr_other x y : before v x -> before v y -> ev (fun k => cr (scaled k x) (scaled k y) (step v d k) = 0).
Proof using All.
  intros Bx By. destruct (Z.eq_dec (fst v) (fst x)) as [E|N]; [apply cr_half; auto|]. destruct (Z.eq_dec (fst v) (fst y)) as [E|N'].
  - apply (ev_mono (fun k => cr (scaled k y) (scaled k x) (step v d k) = 0)); [|apply cr_half; auto]. intros k H. rewrite cr_anti, H. reflexivity.
  - pose proof d_right as R. exists (fst d + 1). intros k L. unfold cr, step, scaled. cbn [fst snd].
    assert (fst v < fst x) by (destruct Bx; lia). assert (fst v < fst y) by (destruct By; lia).
    rewrite (proj2 (Z.leb_gt (k * fst x) _)), (proj2 (Z.leb_gt (k * fst y) _)) by nia. reflexivity.
Qed.
End W.

Section H.
Variable z : nat -> zpt.
Variable h : list nat.
Variables v p w : nat.
Hypothesis L3 : (3 <= length h)%nat.
Hypothesis ND : NoDup h.
Hypothesis E1 : In (p, v) (cyc h).
Hypothesis E2 : In (v, w) (cyc h).
Hypothesis FIRST : forall x, In x h -> x <> v -> before (z v) (z x).
Lemma cyc_nodup : NoDup (cyc h).
Proof using ND. apply (NoDup_map_inv fst). rewrite cyc_fst. exact ND. Qed.
(** just inside the corner p v w the winding number is not 0 *)
Lemma corner_wind_l d : 0 < orient (z v) (z w) (z p) -> 0 < vx (vsub (z w) (z v)) d -> 0 < vx d (vsub (z p) (z v)) ->
  ev (fun k => 0 < k /\ wind (fun x => scaled k (z x)) h (step (z v) d k) <> 0).
Proof using All.
  intros O D1 D2. destruct (Stokes.cyc_in _ _ _ E1) as [Ip Iv]. destruct (Stokes.cyc_in _ _ _ E2) as [_ Iw].
  assert (Np : p <> v) by (apply (cyc_ne h); auto). assert (Nw : w <> v) by (apply not_eq_sym; apply (cyc_ne h); auto).
  pose proof (FIRST w Iw Nw) as Bw. pose proof (FIRST p Ip Np) as Bp.
  assert (OT : ev (fun k => forall e, In e (cyc h) -> e <> (v, w) -> cr (scaled k (z (fst e))) (scaled k (z (snd e))) (step (z v) d k) = 0)).
  { apply ev_list. intros [x y] I'. cbn [fst snd].
    destruct (Nat.eq_dec x v) as [->|Nx].
    - apply (cyc_succ h v w ND E2) in I'. subst y. exists 0. congruence.
    - destruct (Nat.eq_dec y v) as [->|Ny].
      + apply (cyc_pred h p v ND E1) in I'. subst x.
        apply (ev_mono (fun k => cr (scaled k (z v)) (scaled k (z p)) (step (z v) d k) = 0)); [intros k H _; rewrite cr_anti, H; reflexivity|]. apply (cr_upper (z v) (z w) (z p) d); auto.
      + destruct (Stokes.cyc_in _ _ _ I') as [Ix Iy]. apply (ev_mono (fun k => cr (scaled k (z x)) (scaled k (z y)) (step (z v) d k) = 0)); [auto|]. apply (cr_other (z v) (z w) (z p) d); auto. }
  destruct (ev_and _ _ OT (cr_lower (z v) (z w) (z p) d Bw Bp O D1 D2)) as [k0 K]. exists k0. intros k L. destruct (K k L) as (A & B & C'). split; auto.
  unfold wind. rewrite (zsuml_only _ _ (v, w)).
  - cbn [fst snd]. rewrite C'. discriminate.
  - apply cyc_nodup.
  - exact E2.
  - intros e Ie Ne. apply A; auto.
Qed.
Lemma corner_wind_r d : 0 < orient (z v) (z p) (z w) -> 0 < vx (vsub (z p) (z v)) d -> 0 < vx d (vsub (z w) (z v)) ->
  ev (fun k => 0 < k /\ wind (fun x => scaled k (z x)) h (step (z v) d k) <> 0).
Proof using All.
  intros O D1 D2. destruct (Stokes.cyc_in _ _ _ E1) as [Ip Iv]. destruct (Stokes.cyc_in _ _ _ E2) as [_ Iw].
  assert (Np : p <> v) by (apply (cyc_ne h); auto). assert (Nw : w <> v) by (apply not_eq_sym; apply (cyc_ne h); auto).
  pose proof (FIRST w Iw Nw) as Bw. pose proof (FIRST p Ip Np) as Bp.
  assert (OT : ev (fun k => forall e, In e (cyc h) -> e <> (p, v) -> cr (scaled k (z (fst e))) (scaled k (z (snd e))) (step (z v) d k) = 0)).
  { apply ev_list. intros [x y] I'. cbn [fst snd].
    destruct (Nat.eq_dec x v) as [->|Nx].
    - apply (cyc_succ h v w ND E2) in I'. subst y. apply (ev_mono (fun k => cr (scaled k (z v)) (scaled k (z w)) (step (z v) d k) = 0)); [auto|]. apply (cr_upper (z v) (z p) (z w) d); auto.
    - destruct (Nat.eq_dec y v) as [->|Ny].
      + apply (cyc_pred h p v ND E1) in I'. subst x. exists 0. congruence.
      + destruct (Stokes.cyc_in _ _ _ I') as [Ix Iy]. apply (ev_mono (fun k => cr (scaled k (z x)) (scaled k (z y)) (step (z v) d k) = 0)); [auto|]. apply (cr_other (z v) (z p) (z w) d); auto. }
  destruct (ev_and _ _ OT (cr_lower (z v) (z p) (z w) d Bp Bw O D1 D2)) as [k0 K]. exists k0. intros k L. destruct (K k L) as (A & B & C'). split; auto.
  unfold wind. rewrite (zsuml_only _ _ (p, v)).
  - cbn [fst snd]. rewrite cr_anti, C'. discriminate.
  - apply cyc_nodup.
  - exact E1.
  - intros e Ie Ne. apply A; auto.
Qed.
End H.
