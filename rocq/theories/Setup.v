(** * Setup: the points of a run as integer points; proper inputs *)
From Coq Require Import List Arith Bool Lia ZArith.
From Verif Require Import Base Num Shape ShapeSpec Utils Points Front Sweeper Monad Lists Exact.
Import ListNotations.

Section S.
Context {A : Arith} {E : Exact A}.
Variable points : Points.

(** number of point ids, artificial ones included, and their integer coordinates *)
Definition npts : nat := length (ps_points points).
Definition zc (id : nat) : zpt := match nth_error (ps_points points) id with Some p => zp p | None => (0, 0)%Z end.

(** finite coordinates, no two points (artificial ones included) coincide, and the
    two artificial points strictly enclose the others from below *)
Record proper : Prop := {
  pr_fin : Forall finp (ps_points points);
  pr_inj : forall i j, i < npts -> j < npts -> zc i = zc j -> i = j;
  pr_head : ps_head points + 2 = npts;
  pr_tail : ps_tail points + 1 = npts;
  pr_frame : forall i, i < ps_head points ->
    (fst (zc (ps_head points)) < fst (zc i) < fst (zc (ps_tail points)))%Z /\
    (snd (zc (ps_head points)) < snd (zc i))%Z /\ (snd (zc (ps_tail points)) < snd (zc i))%Z;
  pr_base : (fst (zc (ps_head points)) < fst (zc (ps_tail points)))%Z
}.

Lemma pt_fin : proper -> forall id, id < npts -> exists p, pt points id = Done p /\ nth_error (ps_points points) id = Some p /\ finp p /\ zp p = zc id.
Proof.
  intros P id H. destruct (nth_error_ex _ _ H) as [p Ep]. exists p. unfold pt, get_point_uncheck, get_unchecked, zc. rewrite Ep.
  repeat split; auto; apply (proj1 (Forall_forall _ _) (pr_fin P) p); eapply nth_error_In; eauto.
Qed.
Lemma frame_le : proper -> forall i, i < npts -> ~ xlt (zc i) (zc (ps_head points)) /\ ~ xlt (zc (ps_tail points)) (zc i).
Proof.
  intros P i H. pose proof (pr_head P). pose proof (pr_tail P). pose proof (pr_base P) as B.
  assert (C : i < ps_head points \/ i = ps_head points \/ i = ps_tail points) by lia.
  destruct C as [C|[->| ->]].
  - pose proof (pr_frame P i C) as (F1 & F2 & F3). unfold xlt. lia.
  - split; [apply xlt_irrefl|]. unfold xlt. lia.
  - split; [|apply xlt_irrefl]. unfold xlt. lia.
Qed.
End S.
