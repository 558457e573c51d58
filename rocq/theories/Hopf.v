(** * Hopf: the turning number of a simple polygon

    A closed polygon P 0, P 1, ..., P (n-1) whose edges do not cross and no three of whose points are on a line
    makes exactly one full turn.  Directions are compared with a linear functional [ell]: a half turn is
    counted at every vertex where the direction of travel changes sides, with the sign of the turn.
    The proof is Hopf's: the directions of the chords P j - P i, i < j, are deformed from the edges to the chords
    that start or end in an extreme vertex. *)
From Coq Require Import List Arith Bool Lia ZArith Psatz.
From Verif Require Import Base Exact Geom Legal.
Import ListNotations.
Local Open Scope Z_scope.

Definition vsub (a b : zpt) : zpt := (fst a - fst b, snd a - snd b).
Definition vx (u w : zpt) : Z := fst u * snd w - snd u * fst w.
(** a linear functional; K is taken large, so that its sign is that of the first coordinate, the second breaks ties *)
Definition ell (K : Z) (u : zpt) : Z := K * fst u + snd u.
(** the direction changes from u to w: a half turn is completed if they are on different sides, left (+1) or right (-1) *)
Definition half (K : Z) (u w : zpt) : Z := if (Bool.eqb (0 <? ell K u) (0 <? ell K w)) then 0 else Z.sgn (vx u w).

Lemma vx_anti u w : vx w u = - vx u w. Proof. unfold vx. ring. Qed.
Lemma half_anti K u w : half K w u = - half K u w.
Proof.
  unfold half. rewrite (vx_anti u w). rewrite Z.sgn_opp. destruct (0 <? ell K u), (0 <? ell K w); reflexivity.
Qed.
Lemma half_same K u w : 0 < ell K u -> 0 < ell K w -> half K u w = 0.
Proof. intros H1 H2. unfold half. apply Z.ltb_lt in H1, H2. rewrite H1, H2. reflexivity. Qed.
Lemma half_same' K u w : ell K u < 0 -> ell K w < 0 -> half K u w = 0.
Proof. intros H1 H2. unfold half. destruct (Z.ltb_spec 0 (ell K u)), (Z.ltb_spec 0 (ell K w)); try lia. reflexivity. Qed.
Lemma half_diff K u w : ell K u < 0 -> 0 < ell K w -> half K u w = Z.sgn (vx u w).
Proof. intros H1 H2. unfold half. destruct (Z.ltb_spec 0 (ell K u)), (Z.ltb_spec 0 (ell K w)); try lia. reflexivity. Qed.
Lemma half_diff' K u w : 0 < ell K u -> ell K w < 0 -> half K u w = Z.sgn (vx u w).
Proof. intros H1 H2. unfold half. destruct (Z.ltb_spec 0 (ell K u)), (Z.ltb_spec 0 (ell K w)); try lia. reflexivity. Qed.
Lemma half_neg K u w : half K (- fst u, - snd u) (- fst w, - snd w) = half K u w \/ ell K u = 0 \/ ell K w = 0.
Proof.
  destruct (Z.eq_dec (ell K u) 0); auto. destruct (Z.eq_dec (ell K w) 0); auto. left. unfold half.
  assert (E : forall v, ell K (- fst v, - snd v) = - ell K v) by (intro; unfold ell; cbn [fst snd]; ring). rewrite !E.
  replace (vx (- fst u, - snd u) (- fst w, - snd w)) with (vx u w) by (unfold vx; cbn [fst snd]; ring).
  destruct (Z.ltb_spec 0 (ell K u)), (Z.ltb_spec 0 (ell K w)), (Z.ltb_spec 0 (- ell K u)), (Z.ltb_spec 0 (- ell K w)); try lia; reflexivity.
Qed.

(** through an intermediate direction *)
Lemma half_via K a b c : fst b = fst a + fst c -> snd b = snd a + snd c -> ell K a <> 0 -> ell K b <> 0 -> ell K c <> 0 ->
  half K a b + half K b c = half K a c.
Proof.
  intros E1 E2 A0 B0 C0.
  assert (X1 : vx a b = vx a c) by (unfold vx; rewrite E1, E2; ring). assert (X2 : vx b c = vx a c) by (unfold vx; rewrite E1, E2; ring).
  assert (LB : ell K b = ell K a + ell K c) by (unfold ell; rewrite E1, E2; ring).
  unfold half. rewrite X1, X2.
  destruct (Z.ltb_spec 0 (ell K a)), (Z.ltb_spec 0 (ell K b)), (Z.ltb_spec 0 (ell K c)); cbn [Bool.eqb]; lia.
Qed.

(** around a parallelogram that does not contain the origin *)
Lemma half_cell K u1 u2 u3 u4 : fst u1 + fst u3 = fst u2 + fst u4 -> snd u1 + snd u3 = snd u2 + snd u4 ->
  ell K u1 <> 0 -> ell K u2 <> 0 -> ell K u3 <> 0 -> ell K u4 <> 0 ->
  vx u1 u2 <> 0 -> vx u2 u3 <> 0 -> vx u3 u4 <> 0 -> vx u4 u1 <> 0 ->
  ~ (0 < vx u1 u2 /\ 0 < vx u2 u3 /\ 0 < vx u3 u4 /\ 0 < vx u4 u1) -> ~ (vx u1 u2 < 0 /\ vx u2 u3 < 0 /\ vx u3 u4 < 0 /\ vx u4 u1 < 0) ->
  half K u1 u2 + half K u2 u3 + half K u3 u4 + half K u4 u1 = 0.
Proof.
  intros E1 E2 L1 L2 L3 L4 X1 X2 X3 X4 NP NN.
  assert (LS : ell K u1 + ell K u3 = ell K u2 + ell K u4).
  { unfold ell. replace (fst u4) with (fst u1 + fst u3 - fst u2) by lia. replace (snd u4) with (snd u1 + snd u3 - snd u2) by lia. ring. }
  assert (I1' : vx u1 u2 * (ell K u2 - ell K u3) = ell K u1 * vx u2 u3 + ell K u2 * vx u4 u1).
  { unfold ell, vx. replace (fst u4) with (fst u1 + fst u3 - fst u2) by lia. replace (snd u4) with (snd u1 + snd u3 - snd u2) by lia. ring. }
  assert (I2' : vx u2 u3 * (ell K u3 - ell K u4) = ell K u2 * vx u3 u4 + ell K u3 * vx u1 u2).
  { unfold ell, vx. replace (fst u4) with (fst u1 + fst u3 - fst u2) by lia. replace (snd u4) with (snd u1 + snd u3 - snd u2) by lia. ring. }
  assert (I3' : vx u3 u4 * (ell K u4 - ell K u1) = ell K u3 * vx u4 u1 + ell K u4 * vx u2 u3).
  { unfold ell, vx. replace (fst u4) with (fst u1 + fst u3 - fst u2) by lia. replace (snd u4) with (snd u1 + snd u3 - snd u2) by lia. ring. }
  assert (I4' : vx u4 u1 * (ell K u1 - ell K u2) = ell K u4 * vx u1 u2 + ell K u1 * vx u3 u4).
  { unfold ell, vx. replace (fst u4) with (fst u1 + fst u3 - fst u2) by lia. replace (snd u4) with (snd u1 + snd u3 - snd u2) by lia. ring. }
  assert (AR : vx u1 u2 + vx u3 u4 = vx u2 u3 + vx u4 u1).
  { unfold vx. replace (fst u4) with (fst u1 + fst u3 - fst u2) by lia. replace (snd u4) with (snd u1 + snd u3 - snd u2) by lia. ring. }
  unfold half.
  set (l1 := ell K u1) in *. set (l2 := ell K u2) in *. set (l3 := ell K u3) in *. set (l4 := ell K u4) in *.
  set (x1 := vx u1 u2) in *. set (x2 := vx u2 u3) in *. set (x3 := vx u3 u4) in *. set (x4 := vx u4 u1) in *.
  clearbody l1 l2 l3 l4 x1 x2 x3 x4.
  destruct (Z.ltb_spec 0 l1), (Z.ltb_spec 0 l2), (Z.ltb_spec 0 l3), (Z.ltb_spec 0 l4); cbn [Bool.eqb]; try lia;
  destruct (Z.sgn_spec x1) as [[S1 S1']|[[S1 S1']|[S1 S1']]]; destruct (Z.sgn_spec x2) as [[S2 S2']|[[S2 S2']|[S2 S2']]];
  destruct (Z.sgn_spec x3) as [[S3 S3']|[[S3 S3']|[S3 S3']]]; destruct (Z.sgn_spec x4) as [[S4 S4']|[[S4 S4']|[S4 S4']]]; try lia; exfalso; try tauto; nia.
Qed.

(** ** the polygon *)
Section Polygon.
Variable K : Z.
Variable n : nat.
Variable P : nat -> zpt.
Hypothesis N3 : (3 <= n)%nat.
Hypothesis closed : P n = P 0%nat.
Hypothesis gp : forall i j k, (i < j)%nat -> (j < k)%nat -> (k < n)%nat -> orient (P i) (P j) (P k) <> 0.
Hypothesis ldist : forall i j, (i < j)%nat -> (j < n)%nat -> ell K (P i) <> ell K (P j).
Hypothesis lmin : forall i, (0 < i)%nat -> (i < n)%nat -> ell K (P 0%nat) < ell K (P i).
(** edges that are not neighbours do not cross *)
Hypothesis apart : forall i j, (S i < j)%nat -> (j < n)%nat -> ~ (i = 0%nat /\ S j = n) ->
  ~ (orient (P i) (P (S i)) (P j) * orient (P i) (P (S i)) (P (S j)) < 0 /\ orient (P j) (P (S j)) (P i) * orient (P j) (P (S j)) (P (S i)) < 0).

Definition chd (i j : nat) : zpt := vsub (P j) (P i).
Lemma ell_sub a b : ell K (vsub a b) = ell K a - ell K b. Proof. unfold ell, vsub. cbn [fst snd]. ring. Qed.
Lemma chd_ell i j : (i < j)%nat -> (j <= n)%nat -> ~ (i = 0%nat /\ j = n) -> ell K (chd i j) <> 0.
Proof.
  intros H1 H2 H3. unfold chd. rewrite ell_sub. destruct (Nat.eq_dec j n) as [->|N].
  - rewrite closed. specialize (lmin i). lia.
  - specialize (ldist i j). lia.
Qed.
(** general position, the last point being the first one *)
Lemma gp3 i j k : (i < j)%nat -> (j < k)%nat -> (k <= n)%nat -> ~ (i = 0%nat /\ k = n) -> orient (P i) (P j) (P k) <> 0.
Proof.
  intros H1 H2 H3 H4. destruct (Nat.eq_dec k n) as [->|N]; [|apply gp; lia]. rewrite closed. rewrite <- orient_rot'. apply gp; lia.
Qed.
Lemma cell i j : (S i < j)%nat -> (j < n)%nat -> ~ (i = 0%nat /\ S j = n) ->
  half K (chd i j) (chd i (S j)) + half K (chd i (S j)) (chd (S i) (S j)) = half K (chd i j) (chd (S i) j) + half K (chd (S i) j) (chd (S i) (S j)).
Proof.
  intros H1 H2 H3.
  assert (C : half K (chd i j) (chd (S i) j) + half K (chd (S i) j) (chd (S i) (S j)) + half K (chd (S i) (S j)) (chd i (S j)) + half K (chd i (S j)) (chd i j) = 0).
  2: { rewrite (half_anti K (chd i (S j)) (chd (S i) (S j))), (half_anti K (chd i j) (chd i (S j))) in C. lia. }
  assert (X1 : vx (chd i j) (chd (S i) j) = orient (P i) (P (S i)) (P j)) by (unfold vx, chd, vsub; zpts; ring).
  assert (X2 : vx (chd (S i) j) (chd (S i) (S j)) = orient (P j) (P (S j)) (P (S i))) by (unfold vx, chd, vsub; zpts; ring).
  assert (X3 : vx (chd (S i) (S j)) (chd i (S j)) = - orient (P i) (P (S i)) (P (S j))) by (unfold vx, chd, vsub; zpts; ring).
  assert (X4 : vx (chd i (S j)) (chd i j) = - orient (P j) (P (S j)) (P i)) by (unfold vx, chd, vsub; zpts; ring).
  assert (G1 : orient (P i) (P (S i)) (P j) <> 0) by (apply gp3; lia).
  assert (G2 : orient (P j) (P (S j)) (P (S i)) <> 0) by (rewrite <- orient_rot'; apply gp3; lia).
  assert (G3 : orient (P i) (P (S i)) (P (S j)) <> 0) by (apply gp3; lia).
  assert (G4 : orient (P j) (P (S j)) (P i) <> 0) by (rewrite <- orient_rot'; apply gp3; lia).
  pose proof (apart i j H1 H2 H3) as AP.
  apply half_cell; rewrite ?X1, ?X2, ?X3, ?X4; try (apply chd_ell; lia); try (unfold chd, vsub; cbn [fst snd]; ring); clear - G1 G2 G3 G4 AP; try lia;
    (intros (A1 & A2 & A3 & A4); apply AP; split; nia).
Qed.

(** the sum of the half turns along the row (i, i+1), (i, i+2), ..., (i, i+1+m) of chords *)
Definition row (i m : nat) : Z := zsum (fun k => half K (chd i (i + 1 + k)%nat) (chd i (i + 2 + k)%nat)) m.
(** one strip *)
Lemma strip i m : (i + 2 + m <= n)%nat -> ~ (i = 0%nat /\ i + 2 + m = n)%nat ->
  row i (S m) + half K (chd i (i + 2 + m)%nat) (chd (S i) (i + 2 + m)%nat) = half K (chd i (S i)) (chd (S i) (S (S i))) + row (S i) m.
Proof.
  induction m as [|m IH]; intros L NE.
  - unfold row. cbn [zsum]. replace (i + 1 + 0)%nat with (S i) by lia. replace (i + 2 + 0)%nat with (S (S i)) by lia.
    rewrite <- (half_via K (chd i (S i)) (chd i (S (S i))) (chd (S i) (S (S i)))); [lia| | | | |]; try (apply chd_ell; lia); unfold chd, vsub; cbn [fst snd]; ring.
  - specialize (IH ltac:(lia) ltac:(lia)).
    pose proof (cell i (i + 2 + m) ltac:(lia) ltac:(lia) ltac:(lia)) as C.
    unfold row in *. change (zsum ?f (S (S m))) with (zsum f (S m) + f (S m)). cbv beta.
    replace (i + 1 + S m)%nat with (i + 2 + m)%nat by lia. replace (i + 2 + S m)%nat with (S (i + 2 + m)) by lia.
    change (zsum (fun k => half K (chd (S i) (S i + 1 + k)%nat) (chd (S i) (S i + 2 + k)%nat)) (S m)) with
      (zsum (fun k => half K (chd (S i) (S i + 1 + k)%nat) (chd (S i) (S i + 2 + k)%nat)) m + half K (chd (S i) (S i + 1 + m)%nat) (chd (S i) (S i + 2 + m)%nat)).
    replace (S i + 1 + m)%nat with (i + 2 + m)%nat by lia. replace (S i + 2 + m)%nat with (S (i + 2 + m)) by lia. lia.
Qed.
Lemma row_first m : (1 + m < n)%nat -> row 0 m = 0.
Proof.
  intro L. unfold row. induction m as [|m IH]; auto. cbn [zsum]. rewrite IH by lia. cbn [Nat.add]. rewrite half_same; auto; unfold chd; rewrite ell_sub; apply Z.lt_0_sub; apply lmin; lia.
Qed.
Lemma last_col i : (0 < i)%nat -> (S i < n)%nat -> half K (chd i n) (chd (S i) n) = 0.
Proof. intros H1 H2. apply half_same'; unfold chd; rewrite ell_sub, closed; [specialize (lmin i)|specialize (lmin (S i))]; lia. Qed.

Definition turns (m : nat) : Z := zsum (fun i => half K (chd i (S i)) (chd (S i) (S (S i)))) m.
Lemma turns_row m : (1 <= m)%nat -> (m + 1 <= n)%nat ->
  zsum (fun i => half K (chd (S i) (S (S i))) (chd (S (S i)) (S (S (S i))))) (m - 1) + row m (n - m - 1) = row 1 (n - 2).
Proof.
  induction m as [|m IH]; intros L1 L2; [lia|]. destruct (Nat.eq_dec m 0) as [->|M0].
  - cbn [Nat.sub zsum]. replace (n - 1 - 1)%nat with (n - 2)%nat by lia. lia.
  - specialize (IH ltac:(lia) ltac:(lia)). rewrite <- IH. replace (S m - 1)%nat with (S (m - 1)) by lia. cbn [zsum].
    replace (S (m - 1)) with m by lia.
    pose proof (strip m (n - m - 2) ltac:(lia) ltac:(lia)) as ST. replace (m + 2 + (n - m - 2))%nat with n in ST by lia. rewrite last_col in ST by lia.
    replace (S (n - m - 2)) with (n - m - 1)%nat in ST by lia. replace (n - S m - 1)%nat with (n - m - 2)%nat by lia. lia.
Qed.
Lemma zsum_S (f : nat -> Z) m : zsum f (S m) = f 0%nat + zsum (fun i => f (S i)) m.
Proof. induction m as [|m IH]; [cbn; lia|]. change (zsum f (S (S m))) with (zsum f (S m) + f (S m)). rewrite IH. cbn [zsum]. lia. Qed.

(** twice the turn in the extreme vertex *)
Theorem hopf : turns (n - 1) + half K (chd (n - 1) n) (chd 0 1) = 2 * half K (chd (n - 1) n) (chd 0 1).
Proof.
  assert (T : turns (n - 1) = half K (chd (n - 1) n) (chd 0 1)); [|lia].
  unfold turns. replace (n - 1)%nat with (S (n - 2)) at 1 by lia. rewrite zsum_S.
  pose proof (turns_row (n - 1) ltac:(lia) ltac:(lia)) as TR. replace (n - 1 - 1)%nat with (n - 2)%nat in TR by lia. replace (n - (n - 1) - 1)%nat with 0%nat in TR by lia.
  unfold row at 1 in TR. cbn [zsum] in TR. rewrite Z.add_0_r in TR. rewrite TR.
  pose proof (strip 0 (n - 3) ltac:(lia) ltac:(lia)) as ST. rewrite row_first in ST by lia. replace (0 + 2 + (n - 3))%nat with (n - 1)%nat in ST by lia.
  replace (n - 2)%nat with (S (n - 3)) by lia. unfold row at 1. change (zsum ?f (S (n - 3))) with (zsum f (n - 3) + f (n - 3)%nat). cbv beta.
  replace (1 + 1 + (n - 3))%nat with (n - 1)%nat by lia. replace (1 + 2 + (n - 3))%nat with n by lia.
  fold (row 1 (n - 3)).
  assert (V : half K (chd 0 (n - 1)) (chd 1 (n - 1)) + half K (chd 1 (n - 1)) (chd 1 n) = half K (chd (n - 1) n) (chd 0 1)); [|lia].
  rewrite half_via.
  - unfold chd. rewrite closed. pose proof (lmin (n - 1) ltac:(lia) ltac:(lia)) as M1. pose proof (lmin 1%nat ltac:(lia) ltac:(lia)) as M2.
    rewrite half_diff', half_diff by (rewrite ell_sub; lia). f_equal. unfold vx, vsub. cbn [fst snd]. ring.
  - unfold chd, vsub. rewrite closed. cbn [fst snd]. ring.
  - unfold chd, vsub. rewrite closed. cbn [fst snd]. ring.
  - apply chd_ell; lia.
  - apply chd_ell; lia.
  - apply chd_ell; lia.
Qed.
End Polygon.
Print Assumptions hopf.
