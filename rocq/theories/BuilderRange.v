(** * BuilderRange: edge endpoints are in range, whatever the arithmetic *)
From Coq Require Import List Arith Bool Lia.
From Verif Require Import Base Num Shape Points Triangles Front Sweeper Cdt Lists BuilderSpec History.
Import ListNotations.

Section S.
Context {A : Arith}.
Definition below (n : nat) (e : PointEdges) : Prop := Forall (fun p => p < n) (edges_list e).
Definition EB (n : nat) (b : PointsBuilder) : Prop := Forall (below n) (pb_edges b).
Lemma below_le n n' e : n <= n' -> below n e -> below n' e.
Proof. intros L H. eapply Forall_impl; [|exact H]. simpl. intros; lia. Qed.
Lemma EB_le n n' b : n <= n' -> EB n b -> EB n' b.
Proof. intros L H. eapply Forall_impl; [|exact H]. intros e. apply below_le; auto. Qed.
Lemma push_EB n b q p b' : pb_push_edge b q p = Done b' -> p < n -> EB n b -> EB n b'.
Proof.
  unfold pb_push_edge. destruct (nth_error (pb_edges b) q) eqn:E; simpl; [|discriminate].
  destruct (edges_push p0 p) eqn:P; simpl; try discriminate. intros H L B. injection H as <-. unfold EB in *. simpl.
  rewrite Forall_forall in *. intros x I. apply In_list_set in I as [->|I]; auto.
  apply nth_error_In in E. specialize (B _ E). unfold below in *.
  destruct p0; simpl in P; inversion P; subst; unfold edges_list; simpl in *; auto.
  inversion B; subst. auto.
Qed.
Lemma between_EB n b x y b' : push_edge_between b x y = Done b' -> fst x < n -> fst y < n -> EB n b -> EB n b'.
Proof.
  unfold push_edge_between. destruct (edge_new _ _ _ _) eqn:E; simpl; try discriminate. intros H X Y B.
  eapply push_EB; eauto. unfold edge_new in E.
  repeat match type of E with (if ?c then _ else _) = _ => destruct c end; inversion E; subst; auto.
Qed.
Lemma polyline_EB n l : forall b f la b', polyline_edges b f la l = Done b' -> fst f < n -> fst la < n ->
  Forall (fun x => fst x < n) l -> EB n b -> EB n b'.
Proof.
  induction l as [|p l IH]; simpl; intros b f la b' H F L Fl B; [eapply between_EB; eauto|]. inversion Fl; subst.
  destruct (push_edge_between b la p) eqn:E; simpl in H; try discriminate.
  eapply IH; eauto. eapply between_EB; eauto.
Qed.
Lemma parse_EB l b b' : wf_pb b -> parse_polyline l b = Done b' -> EB (length (pb_points b)) b -> EB (length (pb_points b')) b'.
Proof.
  intros W H B. destruct (parse_polyline_points l b b' W H) as [E _]. rewrite E, app_length.
  unfold parse_polyline in H. pose proof (add_all_spec b l W) as S. destruct (add_all b l) as [ids b1].
  destruct S as (E1 & E2 & E3).
  assert (B1 : EB (length (pb_points b) + length l) b1).
  { unfold EB. rewrite E2. apply Forall_app. split; [eapply Forall_impl; [|exact B]; intro; apply below_le; lia|].
    apply Forall_forall. intros x I. apply repeat_spec in I as ->. constructor. }
  assert (I1 : Forall (fun x => fst x < length (pb_points b) + length l) ids).
  { subst ids. apply Forall_forall. intros [i p] I. apply in_combine_l in I. apply in_seq in I. simpl. lia. }
  destruct ids as [|f r]; [injection H as <-; auto|]. inversion I1; subst. eapply polyline_EB; eauto.
Qed.
Variable PD : Type.
Definition BE (b : Builder PD) : Prop := bd_wf PD b /\ EB (length (pb_points (bd_points b))) (bd_points b).
Lemma hole_BE b s b' : BE b -> add_hole PD b s = Done b' -> BE b'.
Proof.
  intros [W B] H. destruct (add_hole_points PD b s b' W H) as (_ & _ & W'). split; auto.
  unfold add_hole in H. destruct (parse_polyline (fst s) (bd_points b)) eqn:E; try discriminate. injection H as <-. simpl.
  exact (parse_EB _ _ _ W E B).
Qed.
Lemma holes_BE l : forall b b', BE b -> add_holes PD b l = Done b' -> BE b'.
Proof.
  induction l as [|s l IH]; simpl; intros b b' H E; [injection E as <-; auto|].
  destruct (add_hole PD b s) eqn:Q; try discriminate. eapply IH; [eapply hole_BE; eauto|exact E].
Qed.
Lemma call_BE c b b' : BE b -> apply_call PD b c = Done b' -> BE b'.
Proof.
  intros [W B] E. destruct (apply_call_points PD c b b' W E) as (P & _ & W'). split; auto. rewrite P, app_length.
  destruct c; simpl in E.
  - apply hole_BE in E as [_ E]; [|split; auto]. rewrite P, app_length in E. exact E.
  - apply holes_BE in E as [_ E]; [|split; auto]. rewrite P, app_length in E. exact E.
  - injection E as <-. simpl. unfold EB. simpl. apply Forall_app. split; [|repeat constructor].
    eapply Forall_impl; [|exact B]. intro. apply below_le. lia.
  - injection E as <-. simpl. destruct (steiners_wf (bd_points b) (fst s) W) as (_ & H2 & _). unfold EB. rewrite H2.
    apply Forall_app. split; [eapply Forall_impl; [|exact B]; intro; apply below_le; lia|].
    apply Forall_forall. intros x I. apply repeat_spec in I as ->. constructor.
Qed.
Lemma calls_BE l : forall b b', BE b -> apply_calls PD b l = Done b' -> BE b'.
Proof.
  induction l as [|s l IH]; simpl; intros b b' H E; [injection E as <-; auto|].
  destruct (apply_call PD b s) eqn:Q; try discriminate. eapply IH; [eapply call_BE; eauto|exact E].
Qed.
Lemma builder_BE src calls b : builder_of PD src calls = Done b -> BE b.
Proof.
  unfold builder_of, builder_new. destruct (parse_polyline (fst src) pb_new) eqn:E; try discriminate. simpl.
  apply calls_BE. assert (W := pb_new_wf). destruct (parse_polyline_points _ _ _ W E) as [_ W']. split; auto.
  simpl. exact (parse_EB _ _ _ W E (Forall_nil _)).
Qed.
End S.
