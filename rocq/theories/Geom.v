(** * Geom: integer plane geometry used by the mesh proofs *)
From Coq Require Import ZArith Lia Bool Psatz.
From Verif Require Import F64 Exact.
Local Open Scope Z_scope.

Ltac zpts := repeat match goal with p : zpt |- _ => destruct p end; unfold orient, incircle, orient_det, incircle_det in *; cbn [fst snd] in *.

Lemma orient_rot a b c : orient b c a = orient a b c.
Proof. zpts. ring. Qed.
Lemma orient_rot' a b c : orient c a b = orient a b c.
Proof. zpts. ring. Qed.
Lemma orient_swap a b c : orient b a c = - orient a b c.
Proof. zpts. ring. Qed.
Lemma orient_swap' a b c : orient a c b = - orient a b c.
Proof. zpts. ring. Qed.
Lemma orient_diag a b : orient a a b = 0 /\ orient a b a = 0 /\ orient a b b = 0.
Proof. zpts. repeat split; ring. Qed.
Lemma orient_neq a b c : orient a b c <> 0 -> a <> b /\ b <> c /\ a <> c.
Proof. intro H. repeat split; intros ->; apply H; apply orient_diag. Qed.
(** the four triangles of four points *)
Lemma orient_four a b c d : orient a b c = orient a b d + orient b c d + orient c a d.
Proof. zpts. ring. Qed.

(** symmetries of the in-circle determinant *)
Lemma incircle_rot a b c d : incircle b c a d = incircle a b c d.
Proof. zpts. ring. Qed.
Lemma incircle_across p x y q : incircle q y x p = incircle p x y q.
Proof. zpts. ring. Qed.
Lemma incircle_flip p x y q : incircle y p q x = - incircle p x y q.
Proof. zpts. ring. Qed.

Lemma sq2 u v : 0 <= u * u + v * v.
Proof. nia. Qed.
(** the point op strictly inside the circle of (p,x,y), on the far side of xy:
    the quadrilateral p x op y is strictly convex *)
Lemma incircle_convex p x y q : 0 < orient p x y -> 0 < orient q y x -> 0 < incircle p x y q ->
  0 < orient p q y /\ 0 < orient q p x.
Proof.
  destruct p as [px py], x as [xx xy], y as [yx yy], q as [qx qy]. unfold orient, incircle, orient_det, incircle_det; cbn [fst snd].
  (* coordinates relative to q *)
  set (a1 := px - qx). set (a2 := py - qy). set (b1 := xx - qx). set (b2 := xy - qy). set (c1 := yx - qx). set (c2 := yy - qy).
  intros H1 H2 H3.
  set (al := b2 * c1 - b1 * c2). set (be := c1 * a2 - c2 * a1). set (ga := a1 * b2 - a2 * b1).
  assert (E1 : (px - yx) * (xy - yy) - (py - yy) * (xx - yx) = be + ga - al) by (unfold al, be, ga, a1, a2, b1, b2, c1, c2; ring).
  assert (E2 : (qx - xx) * (yy - xy) - (qy - xy) * (yx - xx) = al) by (unfold al, b1, b2, c1, c2; ring).
  assert (E3 : (px - yx) * (qy - yy) - (py - yy) * (qx - yx) = be) by (unfold be, a1, a2, c1, c2; ring).
  assert (E4 : (qx - xx) * (py - xy) - (qy - xy) * (px - xx) = ga) by (unfold ga, a1, a2, b1, b2; ring).
  rewrite E1 in H1. rewrite E2 in H2. rewrite E3, E4.
  assert (V1 : al * a1 = be * b1 + ga * c1) by (unfold al, be, ga; ring).
  assert (V2 : al * a2 = be * b2 + ga * c2) by (unfold al, be, ga; ring).
  set (NA := a1 * a1 + a2 * a2) in *. set (NB := b1 * b1 + b2 * b2) in *. set (NC := c1 * c1 + c2 * c2) in *.
  assert (H3' : 0 < be * NB + ga * NC - al * NA).
  { replace (be * NB + ga * NC - al * NA) with (NA * (b1 * c2 - b2 * c1) + NB * be + NC * ga) by (unfold al; ring). exact H3. }
  assert (PA : 0 <= NA) by apply sq2. assert (PB : 0 <= NB) by apply sq2. assert (PC : 0 <= NC) by apply sq2.
  clear H3 E1 E2 E3 E4.
  assert (EA : NA = a1 * a1 + a2 * a2) by reflexivity. assert (EB : NB = b1 * b1 + b2 * b2) by reflexivity.
  assert (EC : NC = c1 * c1 + c2 * c2) by reflexivity. clearbody NA NB NC al be ga. clearbody a1 a2 b1 b2 c1 c2.
  assert (G : forall be ga b1 b2 c1 c2 NB NC, al * a1 = be * b1 + ga * c1 -> al * a2 = be * b2 + ga * c2 ->
     NB = b1 * b1 + b2 * b2 -> NC = c1 * c1 + c2 * c2 -> 0 < be + ga - al -> 0 < be * NB + ga * NC - al * NA -> 0 <= NB -> 0 <= NC -> 0 < be).
  { clear - H2 PA EA. intros be ga b1 b2 c1 c2 NB NC W1 W2 EB EC K1 K2 PB PC.
    destruct (Z_lt_le_dec 0 be) as [|Le]; auto. exfalso.
    (* n = -be >= 0, ga c = al a + n b, ga > al + n *)
    set (n := - be) in *. assert (0 <= n) by lia.
    assert (U1 : ga * c1 = al * a1 + n * b1) by (unfold n; lia).
    assert (U2 : ga * c2 = al * a2 + n * b2) by (unfold n; lia).
    assert (K3 : al * NA + n * NB < ga * NC) by (unfold n; lia).
    assert (K4 : al + n < ga) by lia.
    set (S := al * NA + n * NB) in *. assert (PS : 0 <= S) by (unfold S; apply Z.add_nonneg_nonneg; apply Z.mul_nonneg_nonneg; lia).
    assert (Q : ga * ga * NC = (al + n) * S - al * n * ((a1 - b1) * (a1 - b1) + (a2 - b2) * (a2 - b2))).
    { replace (ga * ga * NC) with ((ga * c1) * (ga * c1) + (ga * c2) * (ga * c2)) by (rewrite EC; ring).
      rewrite U1, U2. unfold S. rewrite EB, EA. ring. }
    assert (Q2 : 0 <= al * n * ((a1 - b1) * (a1 - b1) + (a2 - b2) * (a2 - b2))).
    { apply Z.mul_nonneg_nonneg; [apply Z.mul_nonneg_nonneg; lia|apply sq2]. }
    assert (Q3 : ga * S < ga * (ga * NC)) by (apply Z.mul_lt_mono_pos_l; lia).
    assert (Q4 : (al + n) * S <= ga * S) by (apply Z.mul_le_mono_nonneg_r; lia).
    lia. }
  split.
  - apply (G be ga b1 b2 c1 c2 NB NC); auto.
  - apply (G ga be c1 c2 b1 b2 NC NB); auto; lia.
Qed.

(** the flip potential: six times the volume under the lifted triangle *)
Definition norm2 (a : zpt) : Z := fst a * fst a + snd a * snd a.
Definition phi (a b c : zpt) : Z := orient a b c * (norm2 a + norm2 b + norm2 c).
Lemma phi_flip p x y q : phi y p q + phi x q p = phi p x y + phi q y x - incircle p x y q.
Proof. unfold phi, norm2. zpts. ring. Qed.
Lemma phi_rot a b c : phi b c a = phi a b c.
Proof. unfold phi. rewrite orient_rot. ring. Qed.
Lemma norm2_nonneg a : 0 <= norm2 a. Proof. apply sq2. Qed.
Lemma phi_nonneg a b c : 0 < orient a b c -> 0 <= phi a b c.
Proof. intro H. unfold phi. pose proof (norm2_nonneg a). pose proof (norm2_nonneg b). pose proof (norm2_nonneg c). apply Z.mul_nonneg_nonneg; lia. Qed.
