(** * Fan: the triangles around one vertex

    S lists the pairs (a, b) such that v, a, b is a counter-clockwise triangle of the list.  The lemmas are about
    any such list whose sectors do not overlap; X a b is the orientation of v, a, b and lp a tells on which side of
    a line through v the point a is. *)
From Coq Require Import List Arith Bool Lia ZArith Psatz Permutation.
From Verif Require Import Base Exact Legal Winding.
Import ListNotations.
Local Open Scope Z_scope.

Lemma count01 {T} (f : T -> Z) l : (forall x, In x l -> f x = 0 \/ f x = 1) -> NoDup l -> (forall x y, In x l -> In y l -> f x = 1 -> f y = 1 -> x = y) ->
  (zsuml f l = 0 /\ forall x, In x l -> f x = 0) \/ (zsuml f l = 1 /\ exists x, In x l /\ f x = 1).
Proof.
  induction l as [|a l IH]; intros H ND U; [left; split; [reflexivity|intros ? []]|]. inversion ND as [|? ? NI ND']; subst. cbn [zsuml fold_right].
  destruct IH as [[E Z0]|[E (x & Ix & Ex)]]; [intros; apply H; simpl; auto|exact ND'|intros; apply U; simpl; auto| |]; fold (zsuml f l); rewrite E.
  - destruct (H a ltac:(simpl; auto)) as [Q|Q]; rewrite Q; [left; split; [lia|intros x [<-|I']; auto]|right; split; [lia|exists a; simpl; auto]].
  - destruct (H a ltac:(simpl; auto)) as [Q|Q]; rewrite Q; [right; split; [lia|exists x; simpl; auto]|].
    exfalso. apply NI. rewrite (U a x); simpl; auto.
Qed.
(** a maximal element *)
Lemma maximal {T} (R : T -> T -> Prop) (l : list T) : (forall x y, {R x y} + {~ R x y}) -> l <> [] -> (forall x, In x l -> ~ R x x) ->
  (forall x y w, In x l -> In y l -> In w l -> R x y -> R y w -> R x w) -> exists x, In x l /\ forall y, In y l -> ~ R x y.
Proof.
  intros D. induction l as [|a l IH]; intros NE IR TR; [congruence|]. destruct l as [|b l].
  - exists a. split; [simpl; auto|]. intros y [<-|[]]. apply IR; simpl; auto.
  - destruct IH as (x & Ix & Mx); [discriminate|intros; apply IR; simpl; auto|intros x y w I1 I2 I3; apply TR; simpl; auto|].
    destruct (D x a) as [Q|Q].
    + exists a. split; [simpl; auto|]. intros y [<-|Iy]; [apply IR; simpl; auto|]. intro Q'. apply (Mx y Iy). apply (TR x a y); simpl in *; auto.
    + exists x. split; [simpl in *; auto|]. intros y [<-|Iy]; auto.
Qed.

Definition chg (lp : nat -> Z) (ab : nat * nat) : Z := if Bool.eqb (0 <? lp (fst ab)) (0 <? lp (snd ab)) then 0 else 1.
Definition upw (lp : nat -> Z) (ab : nat * nat) : Z := if (0 <? lp (fst ab)) && negb (0 <? lp (snd ab)) then 1 else 0.
Definition dnw (lp : nat -> Z) (ab : nat * nat) : Z := if negb (0 <? lp (fst ab)) && (0 <? lp (snd ab)) then 1 else 0.
Lemma chg_ud lp ab : chg lp ab = upw lp ab + dnw lp ab.
Proof. unfold chg, upw, dnw. destruct (0 <? lp (fst ab)), (0 <? lp (snd ab)); reflexivity. Qed.
Lemma zsuml_add {T} (f g : T -> Z) l : zsuml (fun x => f x + g x) l = zsuml f l + zsuml g l.
Proof. induction l as [|a l IH]; [reflexivity|]. cbn [zsuml fold_right]. fold (zsuml f l) (zsuml g l) (zsuml (fun x => f x + g x) l). lia. Qed.

Record fan (X : nat -> nat -> Z) (lp : nat -> Z) (S : list (nat * nat)) : Prop := {
  fn_anti : forall a b, X b a = - X a b;
  fn_lin : forall a b c, lp a * X b c + lp b * X c a + lp c * X a b = 0;
  fn_ccw : forall a b, In (a, b) S -> 0 < X a b /\ lp a <> 0 /\ lp b <> 0;
  fn_start : forall a b c d, In (a, b) S -> In (c, d) S -> 0 < X a c -> 0 < X c b -> False;
  fn_end : forall a b c d, In (a, b) S -> In (c, d) S -> 0 < X a d -> 0 < X d b -> False;
  fn_fst : NoDup (map fst S);
  fn_snd : NoDup (map snd S);
  fn_up : forall a b c d, In (a, b) S -> In (c, d) S -> 0 < lp a -> lp b < 0 -> 0 < lp c -> lp d < 0 -> (a, b) = (c, d);
  fn_dn : forall a b c d, In (a, b) S -> In (c, d) S -> lp a < 0 -> 0 < lp b -> lp c < 0 -> 0 < lp d -> (a, b) = (c, d)
}.
Lemma fan_neg X lp S : fan X lp S -> fan X (fun x => - lp x) S.
Proof.
  intros [H1 H2 H3 H4 H5 H6 H7 H8 H9]. constructor; auto.
  - intros a b c. specialize (H2 a b c). lia.
  - intros a b I'. specialize (H3 a b I'). lia.
  - intros a b c d I1 I2 A1 A2 A3 A4. apply H9; auto; lia.
  - intros a b c d I1 I2 A1 A2 A3 A4. apply H8; auto; lia.
Qed.

Section F.
Variable X : nat -> nat -> Z.
Variable lp : nat -> Z.
Variable S : list (nat * nat).
Hypothesis F : fan X lp S.
Notation isst x := (In x (map fst S)).
Notation isen x := (In x (map snd S)).
Lemma st_of a b : In (a, b) S -> isst a. Proof. intro H. exact (in_map fst _ _ H). Qed.
Lemma en_of a b : In (a, b) S -> isen b. Proof. intro H. exact (in_map snd _ _ H). Qed.
Lemma st_in a : isst a -> exists b, In (a, b) S.
Proof. rewrite in_map_iff. intros ([x y] & <- & H). eauto. Qed.
Lemma en_in b : isen b -> exists a, In (a, b) S.
Proof. rewrite in_map_iff. intros ([x y] & <- & H). eauto. Qed.
Lemma xx a : X a a = 0. Proof. pose proof (fn_anti _ _ _ F a a). lia. Qed.
(** on one side the directions are ordered *)
Lemma side_trans a b c : 0 < lp a -> 0 < lp b -> 0 < lp c -> 0 < X a b -> 0 < X b c -> 0 < X a c.
Proof.
  intros A1 A2 A3 H1 H2. pose proof (fn_lin _ _ _ F a b c) as L. pose proof (fn_anti _ _ _ F a c) as N. rewrite N in L. nia.
Qed.
Lemma side_dec : forall x y, {0 < X x y} + {~ 0 < X x y}. Proof. intros. apply Z_lt_dec. Qed.
(** the last start on the positive side that satisfies q *)
Lemma last_start (q : nat -> Prop) (qd : forall x, {q x} + {~ q x}) x0 : isst x0 -> 0 < lp x0 -> q x0 ->
  exists x b, In (x, b) S /\ 0 < lp x /\ q x /\ forall y, isst y -> 0 < lp y -> q y -> ~ 0 < X x y.
Proof.
  intros I0 P0 Q0. set (l := filter (fun x => (0 <? lp x) && if qd x then true else false) (map fst S)).
  assert (IL : forall x, In x l <-> isst x /\ 0 < lp x /\ q x).
  { intro x. unfold l. rewrite filter_In, andb_true_iff, Z.ltb_lt. destruct (qd x); intuition discriminate. }
  destruct (maximal (fun x y => 0 < X x y) l side_dec) as (x & Ix & Mx).
  - intro Q. assert (In x0 l) by (apply IL; auto). rewrite Q in H. destruct H.
  - intros x _. rewrite xx. lia.
  - intros x y w I1 I2 I3. apply IL in I1, I2, I3. apply side_trans; tauto.
  - apply IL in Ix as (I1 & I2 & I3). destruct (st_in x I1) as [b Ib]. exists x, b. repeat (split; [assumption|]).
    intros y J1 J2 J3. apply Mx. apply IL. auto.
Qed.

(** all sectors stay on their side: the chain of sectors on the positive side must end *)
Lemma chain_end x0 : (forall a b, In (a, b) S -> 0 < lp a -> 0 < lp b) -> isst x0 -> 0 < lp x0 ->
  exists x b, In (x, b) S /\ 0 < lp x /\ 0 < lp b /\ ~ isst b /\ (x = x0 \/ ~ 0 < X x x0).
Proof.
  intros SAME I0 P0. destruct (last_start (fun _ => True) (fun _ => left I) x0 I0 P0 I) as (x & b & Ib & Px & _ & Mx).
  exists x, b. pose proof (SAME x b Ib Px) as Pb. split; auto. split; auto. split; auto. split.
  - intro B. apply (Mx b B Pb I). apply (fn_ccw _ _ _ F x b Ib).
  - right. apply (Mx x0); auto.
Qed.
Lemma nochg_same : (forall ab, In ab S -> chg lp ab = 0) -> forall a b, In (a, b) S -> (0 < lp a -> 0 < lp b) /\ (lp a < 0 -> lp b < 0).
Proof.
  intros H a b I'. specialize (H _ I'). unfold chg in H. cbn [fst snd] in H. pose proof (fn_ccw _ _ _ F a b I') as (_ & N1 & N2).
  destruct (Z.ltb_spec 0 (lp a)), (Z.ltb_spec 0 (lp b)); cbn in H; try discriminate; lia.
Qed.
(** below s, where a fan begins, no sector can end *)
Lemma no_down s e : isst s -> ~ isen s -> isen e -> (forall x, x <> s -> x <> e -> (isst x <-> isen x)) -> 0 < lp s -> 0 < lp e -> 0 < X s e ->
  (forall x y, isst x \/ isen x -> isst y \/ isen y -> X x y = 0 -> x = y) ->
  forall a b, In (a, b) S -> lp a < 0 -> 0 < lp b -> False.
Proof.
  intros Is Ns Ie OT Ps Pe XSE GP a b Iab La Lb.
  assert (Nb : b <> s) by (intros ->; apply Ns; eapply en_of; eauto).
  destruct (st_in s Is) as [ds Ids].
  assert (TRI : 0 < X b s \/ 0 < X s b).
  { destruct (Z_lt_le_dec 0 (X b s)) as [Q|Q]; auto. destruct (Z_lt_le_dec 0 (X s b)) as [Q'|Q']; auto. exfalso. pose proof (fn_anti _ _ _ F b s).
    apply Nb. apply GP; [right; eapply en_of; eauto|left; auto|lia]. }
  pose proof (fn_ccw _ _ _ F a b Iab) as (Xab & _).
  destruct TRI as [Q|Q].
  - (* a chain of starts before s *)
    assert (Nbe : b <> e) by (intros ->; rewrite (fn_anti _ _ _ F s e) in Q; lia).
    assert (Ib : isst b) by (apply OT; auto; eapply en_of; eauto).
    destruct (last_start (fun y => 0 < X y s) (fun y => side_dec y s) b Ib Lb Q) as (x & c & Ixc & Px & Qx & Mx).
    pose proof (fn_ccw _ _ _ F x c Ixc) as (Xxc & _ & Nc).
    assert (Ncs : c <> s) by (intros ->; apply Ns; eapply en_of; eauto).
    assert (Xcs : 0 < X c s).
    { destruct (Z_lt_le_dec 0 (X c s)) as [Q1|Q1]; auto. exfalso. apply (fn_start _ _ _ F x c s ds Ixc Ids Qx).
      pose proof (fn_anti _ _ _ F c s). assert (X c s <> 0) by (intro Q2; apply Ncs; apply GP; auto; right; eapply en_of; eauto). lia. }
    assert (Pc : 0 < lp c).
    { pose proof (fn_lin _ _ _ F x c s) as L. rewrite (fn_anti _ _ _ F x s) in L. nia. }
    assert (Nce : c <> e). { intros ->. rewrite (fn_anti _ _ _ F s e) in Xcs. lia. }
    assert (Ic : isst c) by (apply OT; auto; eapply en_of; eauto).
    apply (Mx c Ic Pc Xcs Xxc).
  - (* the sector passes over s *)
    apply (fn_start _ _ _ F a b s ds Iab Ids); auto.
    pose proof (fn_lin _ _ _ F a s b) as L. rewrite (fn_anti _ _ _ F a b) in L. nia.
Qed.
End F.

Section M.
Variable X : nat -> nat -> Z.
Variable lp : nat -> Z.
Variable S : list (nat * nat).
Hypothesis F : fan X lp S.
Notation isst x := (In x (map fst S)).
Notation isen x := (In x (map snd S)).
Definition mids : Z := zsuml (chg lp) S.
Lemma sg x : lp x <> 0 -> {0 < lp x} + {lp x < 0}. Proof. intro. destruct (Z_lt_le_dec 0 (lp x)); [left|right]; lia. Qed.
Lemma nd : NoDup S. Proof. apply (NoDup_map_inv fst). apply (fn_fst _ _ _ F). Qed.
Lemma ups : (zsuml (upw lp) S = 0 /\ forall a b, In (a, b) S -> 0 < lp a -> lp b < 0 -> False) \/ (zsuml (upw lp) S = 1 /\ exists a b, In (a, b) S /\ 0 < lp a /\ lp b < 0).
Proof.
  assert (V : forall a b, In (a, b) S -> upw lp (a, b) = 1 <-> 0 < lp a /\ lp b < 0).
  { intros a b I'. pose proof (fn_ccw _ _ _ F a b I') as (_ & N1 & N2). unfold upw. cbn [fst snd]. destruct (Z.ltb_spec 0 (lp a)), (Z.ltb_spec 0 (lp b)); cbn; split; intros; try discriminate; try lia. }
  destruct (count01 (upw lp) S) as [[E H]|[E ([a b] & I' & Q)]].
  - intros x _. unfold upw. destruct (_ && _); auto.
  - apply nd.
  - intros [a b] [c d] I1 I2 Q1 Q2. apply V in Q1, Q2; auto. apply (fn_up _ _ _ F); tauto.
  - left. split; auto. intros a b I' A1 A2. assert (upw lp (a, b) = 1) by (apply V; auto). rewrite (H _ I') in H0. discriminate.
  - right. split; auto. exists a, b. split; auto. apply V; auto.
Qed.
Lemma dns : (zsuml (dnw lp) S = 0 /\ forall a b, In (a, b) S -> lp a < 0 -> 0 < lp b -> False) \/ (zsuml (dnw lp) S = 1 /\ exists a b, In (a, b) S /\ lp a < 0 /\ 0 < lp b).
Proof.
  assert (V : forall a b, In (a, b) S -> dnw lp (a, b) = 1 <-> lp a < 0 /\ 0 < lp b).
  { intros a b I'. pose proof (fn_ccw _ _ _ F a b I') as (_ & N1 & N2). unfold dnw. cbn [fst snd]. destruct (Z.ltb_spec 0 (lp a)), (Z.ltb_spec 0 (lp b)); cbn; split; intros; try discriminate; try lia. }
  destruct (count01 (dnw lp) S) as [[E H]|[E ([a b] & I' & Q)]].
  - intros x _. unfold dnw. destruct (_ && _); auto.
  - apply nd.
  - intros [a b] [c d] I1 I2 Q1 Q2. apply V in Q1, Q2; auto. apply (fn_dn _ _ _ F); tauto.
  - left. split; auto. intros a b I' A1 A2. assert (dnw lp (a, b) = 1) by (apply V; auto). rewrite (H _ I') in H0. discriminate.
  - right. split; auto. exists a, b. split; auto. apply V; auto.
Qed.
Definition sig (x : nat) : Z := if 0 <? lp x then 1 else 0.
Lemma ud_tele : zsuml (upw lp) S - zsuml (dnw lp) S = zsuml sig (map fst S) - zsuml sig (map snd S).
Proof.
  rewrite !zsuml_map. clear F. induction S as [|ab l IH]; [reflexivity|]. cbn [zsuml fold_right]. fold (zsuml (upw lp) l) (zsuml (dnw lp) l) (zsuml (fun x => sig (fst x)) l) (zsuml (fun x => sig (snd x)) l).
  assert (E : upw lp ab - dnw lp ab = sig (fst ab) - sig (snd ab)) by (unfold upw, dnw, sig; destruct (0 <? lp (fst ab)), (0 <? lp (snd ab)); reflexivity). lia.
Qed.
Lemma mids_ud : mids = zsuml (upw lp) S + zsuml (dnw lp) S.
Proof. unfold mids. rewrite <- zsuml_add. apply zsuml_ext. intros. apply chg_ud. Qed.

(** a vertex surrounded by sectors *)
Lemma mids_inner : S <> [] -> (forall x, isst x <-> isen x) -> mids = 2.
Proof.
  intros NE SE.
  assert (T : zsuml (upw lp) S = zsuml (dnw lp) S).
  { pose proof ud_tele as T. rewrite (zsuml_perm sig (map fst S) (map snd S)) in T; [lia|]. apply NoDup_Permutation; [apply (fn_fst _ _ _ F)|apply (fn_snd _ _ _ F)|exact SE]. }
  rewrite mids_ud. destruct ups as [[U NU]|[U _]]; [|lia]. destruct dns as [[D ND]|[D _]]; [|lia]. exfalso.
  destruct S as [|[a b] l] eqn:ES; [congruence|]. rewrite <- ES in *. clear NE.
  assert (I' : In (a, b) S) by (rewrite ES; simpl; auto). pose proof (fn_ccw _ _ _ F a b I') as (_ & N1 & N2).
  destruct (sg a N1) as [P|P].
  - destruct (chain_end X lp S F a) as (x & c & Ixc & Px & Pc & NS & _).
    + intros a' b' I1 P1. pose proof (fn_ccw _ _ _ F a' b' I1) as (_ & _ & N3). destruct (sg b' N3) as [|Q]; auto. destruct (NU a' b' I1 P1 Q).
    + eapply st_of; eauto.
    + exact P.
    + apply NS. apply SE. eapply en_of; eauto.
  - destruct (chain_end X (fun x => - lp x) S (fan_neg _ _ _ F) a) as (x & c & Ixc & Px & Pc & NS & _).
    + intros a' b' I1 P1. pose proof (fn_ccw _ _ _ F a' b' I1) as (_ & _ & N3). destruct (sg b' N3) as [Q|Q]; [|lia]. destruct (ND a' b' I1); lia.
    + eapply st_of; eauto.
    + lia.
    + apply NS. apply SE. eapply en_of; eauto.
Qed.

Section Border.
Variables s e : nat.
Hypothesis Is : isst s.
Hypothesis Ns : ~ isen s.
Hypothesis Ie : isen e.
Hypothesis Ne : ~ isst e.
Hypothesis OT : forall x, x <> s -> x <> e -> (isst x <-> isen x).
Hypothesis GP : forall x y, isst x \/ isen x -> isst y \/ isen y -> X x y = 0 -> x = y.
Lemma tele_border : zsuml (upw lp) S - zsuml (dnw lp) S = sig s - sig e.
Proof.
  rewrite ud_tele.
  assert (P : Permutation (e :: map fst S) (s :: map snd S)).
  { apply NoDup_Permutation.
    - constructor; [exact Ne|apply (fn_fst _ _ _ F)].
    - constructor; [exact Ns|apply (fn_snd _ _ _ F)].
    - intro x. destruct (Nat.eq_dec x s) as [->|N1]; [simpl; split; auto|]. destruct (Nat.eq_dec x e) as [->|N2]; [simpl; split; auto|].
      simpl. split; intros [Q|Q]; try congruence; right; apply (OT x N1 N2); exact Q. }
  apply (zsuml_perm sig) in P. cbn [zsuml fold_right] in P. fold (zsuml sig (map fst S)) (zsuml sig (map snd S)) in P. lia.
Qed.
Lemma lps : lp s <> 0 /\ lp e <> 0.
Proof.
  destruct (st_in S s Is) as [d I1]. destruct (en_in S e Ie) as [c I2]. pose proof (fn_ccw _ _ _ F _ _ I1). pose proof (fn_ccw _ _ _ F _ _ I2). tauto.
Qed.
Lemma mids_border : mids = 1 - (if Bool.eqb (0 <? lp s) (0 <? lp e) then Z.sgn (X s e) else 0).
Proof.
  pose proof tele_border as T. destruct lps as [L1 L2]. unfold sig in T. rewrite mids_ud.
  assert (XN : X s e <> 0) by (intro Q; apply Ns; rewrite (GP s e); auto).
  pose proof (fan_neg _ _ _ F) as F'.
  destruct (Z.ltb_spec 0 (lp s)) as [Ps|Ps], (Z.ltb_spec 0 (lp e)) as [Pe|Pe]; cbn [Bool.eqb].
  - (* both on the positive side *)
    destruct (Z.sgn_spec (X s e)) as [[Q R]|[[Q R]|[Q R]]]; [|congruence|]; rewrite R.
    + destruct dns as [[D _]|[D (a & b & I' & A1 & A2)]]; [lia|]. exfalso. exact (no_down X lp S F s e Is Ns Ie OT Ps Pe Q GP a b I' A1 A2).
    + destruct ups as [[U NU]|[U _]]; [|lia]. exfalso.
      destruct (chain_end X lp S F s) as (x & c & Ixc & Px & Pc & NS & Hx).
      * intros a' b' I1 P1. pose proof (fn_ccw _ _ _ F a' b' I1) as (_ & _ & N3). destruct (sg b' N3) as [|Q2]; auto. destruct (NU a' b' I1 P1 Q2).
      * exact Is.
      * exact Ps.
      * assert (c = e).
        { destruct (Nat.eq_dec c e) as [|N]; auto. exfalso. apply NS. apply OT; auto; [|eapply en_of; eauto]. intros ->. apply Ns. eapply en_of; eauto. }
        subst c. pose proof (fn_ccw _ _ _ F x e Ixc) as (Xxe & _).
        destruct (Nat.eq_dec x s) as [->|N]; [lia|]. destruct Hx as [|Hx]; [congruence|].
        assert (X x s <> 0) by (intro Q2; apply N; apply GP; auto; left; eapply st_of; eauto).
        pose proof (fn_anti _ _ _ F x s). pose proof (side_trans X lp S F s x e Ps Px Pe ltac:(lia) Xxe). lia.
  - destruct ups as [[U _]|[U _]], dns as [[D _]|[D _]]; lia.
  - destruct ups as [[U _]|[U _]], dns as [[D _]|[D _]]; lia.
  - destruct (Z.sgn_spec (X s e)) as [[Q R]|[[Q R]|[Q R]]]; [|congruence|]; rewrite R.
    + destruct ups as [[U _]|[U (a & b & I' & A1 & A2)]]; [lia|]. exfalso.
      refine (no_down X (fun x => - lp x) S F' s e Is Ns Ie OT _ _ Q GP a b I' _ _); lia.
    + destruct dns as [[D ND]|[D _]]; [|lia]. exfalso.
      destruct (chain_end X (fun x => - lp x) S F' s) as (x & c & Ixc & Px & Pc & NS & Hx).
      * intros a' b' I1 P1. pose proof (fn_ccw _ _ _ F a' b' I1) as (_ & _ & N3). destruct (sg b' N3) as [Q2|Q2]; [|lia]. destruct (ND a' b' I1); lia.
      * exact Is.
      * lia.
      * assert (c = e).
        { destruct (Nat.eq_dec c e) as [|N]; auto. exfalso. apply NS. apply OT; auto; [|eapply en_of; eauto]. intros ->. apply Ns. eapply en_of; eauto. }
        subst c. pose proof (fn_ccw _ _ _ F x e Ixc) as (Xxe & _).
        destruct (Nat.eq_dec x s) as [->|N]; [lia|]. destruct Hx as [|Hx]; [congruence|].
        assert (X x s <> 0) by (intro Q2; apply N; apply GP; auto; left; eapply st_of; eauto).
        pose proof (fn_anti _ _ _ F x s). pose proof (side_trans X _ S F' s x e ltac:(lia) Px ltac:(lia) ltac:(lia) Xxe). lia.
Qed.
End Border.
End M.
