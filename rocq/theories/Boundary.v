(** * Boundary: the boundary of the mesh is the advancing front and the base *)
From Coq Require Import List Arith Bool Lia ZArith.
From Verif Require Import Base Num Shape ShapeSpec Utils Points Triangles Front Sweeper Monad Lists Exact FrontSpec Geom Mesh Rotate Setup Legal Legalize.
Import ListNotations.

(** a position without neighbour, and the directed edge at a position *)
Definition bpos (ts : TriangleStore) (P : pos) : Prop := fst P < length ts /\ ptn ts P = None.
Definition pedge (ts : TriangleStore) (P : pos) : nat * nat := (tv ts (fst P) (nxt (snd P)), tv ts (fst P) (prv (snd P))).

Section S.
Context {A : Arith}.
Variables head tail : nat.
(** consecutive nodes of a front *)
Definition adjacent (ns : list Entry) (e e' : Entry) : Prop :=
  exists k, nth_error ns k = Some e /\ nth_error ns (S k) = Some e'.

(** The edges without neighbour are exactly the base head-tail and the front
    edges, each the edge of one triangle; every front node but the last
    stores the triangle below the front edge to its right.  [R] and [l]
    list triangles / positions whose nodes are still to be updated. *)
Record boundary (ts : TriangleStore) (ns : list Entry) (R : list tid) (l : list pos) : Prop := {
  bd_only : forall P, bpos ts P -> pedge ts P = (head, tail) \/
    exists e e', adjacent ns e e' /\ pedge ts P = (en_pid e', en_pid e);
  bd_front : forall e e', adjacent ns e e' -> exists P, bpos ts P /\ pedge ts P = (en_pid e', en_pid e) /\
    (en_tri e = Some (fst P) \/ In (Some (fst P)) R \/ In P l);
  bd_one : forall P Q, bpos ts P -> bpos ts Q -> pedge ts P = pedge ts Q -> P = Q;
  bd_base : exists P, bpos ts P /\ pedge ts P = (head, tail)
}.

Lemma src_inj N zc ts a i b j P Q : mesh N zc ts -> paired ts a i b j -> ~ diag a i b j P -> ~ diag a i b j Q ->
  src a i b j P = src a i b j Q -> P = Q.
Proof.
  intros M PR DP DQ H. pose proof (flip_ne _ _ _ _ _ _ _ M PR) as Ne. unfold diag in *.
  pose proof (nxt_prv_neq i). pose proof (nxt_prv_neq j).
  unfold src in H. repeat destruct (pos_dec _ _); subst; try congruence;
    exfalso; first [apply DP | apply DQ | idtac]; try (injection H as ? ?; congruence); try tauto.
  all: destruct P as [c k], Q as [c' k']; destruct (ix_cases i k) as [->|[->| ->]], (ix_cases j k) as [?|[?|?]]; try congruence; tauto.
Qed.

Lemma boundary_flip N zc ts a i b j need del ts' ns R : mesh N zc ts -> flipspec N zc ts a i b j need del ts' ->
  boundary ts ns R [] -> boundary ts' ns (if need then R ++ [Some a; Some b] else R) [].
Proof.
  intros M F [B1 B2 B3 B4]. pose proof (fs_paired _ _ _ _ _ _ _ _ _ _ F) as PR. pose proof (fs_len _ _ _ _ _ _ _ _ _ _ F) as LL.
  assert (La : a < length ts) by apply PR. assert (Lb : b < length ts) by apply PR.
  assert (ND : forall P, bpos ts' P -> ~ diag a i b j P).
  { intros P [_ H] [->| ->]; destruct (fs_diag _ _ _ _ _ _ _ _ _ _ F) as (_ & _ & X & Y & _); unfold ptn in H; cbn [fst snd] in *; congruence. }
  assert (ND0 : forall P, bpos ts P -> ~ diag a i b j P).
  { intros P [_ H] [->| ->]; destruct PR as (_ & _ & X & Y & _); unfold ptn in H; cbn [fst snd] in *; congruence. }
  assert (LS : forall P, fst P < length ts -> fst (src a i b j P) < length ts).
  { intros P H. unfold src. repeat destruct (pos_dec _ _); simpl; auto. }
  assert (DN : forall P, bpos ts' P -> bpos ts (src a i b j P) /\ pedge ts (src a i b j P) = pedge ts' P).
  { intros P BP. pose proof (ND P BP) as DP. destruct BP as [LP H]. rewrite LL in LP. split.
    - split; [auto|]. apply (fs_bnd _ _ _ _ _ _ _ _ _ _ F P DP LP). exact H.
    - destruct (fs_edge _ _ _ _ _ _ _ _ _ _ F P DP) as [E1 E2]. unfold pedge. rewrite E1, E2. reflexivity. }
  assert (UP : forall P0, bpos ts P0 -> exists P, bpos ts' P /\ pedge ts' P = pedge ts P0 /\ src a i b j P = P0 /\ ~ diag a i b j P).
  { intros P0 BP. pose proof (ND0 P0 BP) as DP0. destruct (src_dst N zc ts a i b j M PR P0 DP0) as (P & DP & <-).
    destruct BP as [LP H]. assert (LP' : fst P < length ts).
    { destruct (Nat.eq_dec (fst P) a) as [->|Na]; auto. destruct (Nat.eq_dec (fst P) b) as [->|Nb]; auto.
      rewrite (src_out a i b j P Na Nb) in LP. auto. }
    exists P. repeat split; auto.
    - unfold TriangleStore in *. rewrite LL. auto.
    - apply (fs_bnd _ _ _ _ _ _ _ _ _ _ F P DP LP'). exact H.
    - destruct (fs_edge _ _ _ _ _ _ _ _ _ _ F P DP) as [E1 E2]. unfold pedge. rewrite E1, E2. reflexivity. }
  constructor.
  - intros P BP. destruct (DN P BP) as [BQ <-]. auto.
  - intros e e' AD. destruct (B2 e e' AD) as (P0 & BP0 & E0 & H). destruct (UP P0 BP0) as (P & BP & EP & SP & DP).
    exists P. split; auto. split; [congruence|].
    destruct (Nat.eq_dec (fst P) a) as [Ea|Na]; [|destruct (Nat.eq_dec (fst P) b) as [Eb|Nb]].
    + right; left. destruct need eqn:En; [rewrite Ea; apply in_or_app; simpl; auto|].
      exfalso. apply (fs_need _ _ _ _ _ _ _ _ _ _ F eq_refl P DP); auto. apply BP.
    + right; left. destruct need eqn:En; [rewrite Eb; apply in_or_app; simpl; auto|].
      exfalso. apply (fs_need _ _ _ _ _ _ _ _ _ _ F eq_refl P DP); auto. apply BP.
    + rewrite (src_out a i b j P Na Nb) in SP. subst P0. destruct H as [H|[H|[]]]; auto.
      right; left. destruct need; auto. apply in_or_app. auto.
  - intros P Q BP BQ EE. apply (src_inj N zc ts a i b j P Q M PR); auto.
    destruct (DN P BP) as [X1 X2], (DN Q BQ) as [Y1 Y2]. apply B3; auto. congruence.
  - destruct B4 as (P0 & BP & E0). destruct (UP P0 BP) as (P & H1 & H2 & _). exists P. split; auto. congruence.
Qed.
End S.
