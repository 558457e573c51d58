(** * Flood: the extraction of the result (clean_mesh) *)
From Coq Require Import List Arith Bool Lia Permutation.
From Verif Require Import Base Num Shape ShapeSpec Utils Points Triangles Front Sweeper Cdt Lists Monad Safe.
Import ListNotations.

(** ** Specification: the region of a triangle *)
(** triangle a has triangle b across an edge that is not marked constrained *)
Definition open_neighbor (ts : TriangleStore) (a b : nat) : Prop :=
  exists t i, nth_error ts a = Some t /\ tri_is_constrained t i = false /\ get3 (t_neighbors t) i = Some b.
(** b can be reached from a without crossing a constrained edge *)
Inductive region (ts : TriangleStore) (a : nat) : nat -> Prop :=
| region_refl : region ts a a
| region_step b c : region ts a b -> open_neighbor ts b c -> region ts a c.

(** Turning around the corner p from triangle a on, from each triangle to the next through the
    edge from p to the following corner, until a triangle whose edge from p to the preceding
    corner is constrained ([Some] of it) or until no triangle is left ([None]). *)
Inductive fan (ts : TriangleStore) (p : pid) : nat -> tid -> Prop :=
| fan_stop a t k : nth_error ts a = Some t -> get3 (t_points t) k = p -> tri_is_constrained t (nxt k) = true -> fan ts p a (Some a)
| fan_out a t k : nth_error ts a = Some t -> get3 (t_points t) k = p -> tri_is_constrained t (nxt k) = false ->
    get3 (t_neighbors t) (prv k) = None -> fan ts p a None
| fan_step a t k b r : nth_error ts a = Some t -> get3 (t_points t) k = p -> tri_is_constrained t (nxt k) = false ->
    get3 (t_neighbors t) (prv k) = Some b -> fan ts p b r -> fan ts p a r.

(** all triangles equal except for the interior flag, which is set exactly on l *)
Definition marked (ts0 ts : TriangleStore) (l : list tid) : Prop :=
  length ts = length ts0 /\
  forall i t0 t, nth_error ts0 i = Some t0 -> nth_error ts i = Some t ->
    t_points t = t_points t0 /\ t_neighbors t = t_neighbors t0 /\ t_attrs t = t_attrs t0 /\
    (t_interior t = true <-> In (Some i) l).

Section S.
Context {A : Arith}.
Variables N m : nat.
Variable ts0 : TriangleStore.
Hypothesis SO0 : SO N m ts0.

(** flood-fill invariant, for a seed in range *)
Record FI (seed : nat) (stack : list (tid * tid)) (s0 s : Sweeper) : Prop := {
  fi_marked : marked ts0 (s_tris s) (s_result s);
  fi_front : s_front s = s_front s0;
  fi_trace : s_trace s = s_trace s0;
  fi_nodup : NoDup (s_result s);
  fi_range : forall t, In t (s_result s) -> exists i, t = Some i /\ i < m /\ region ts0 seed i;
  fi_stack : forall a f, In (a, f) stack -> (forall i, a = Some i -> i < m /\ region ts0 seed i) /\ (f = None \/ In f (s_result s));
  fi_closed : forall a b, In (Some a) (s_result s) -> open_neighbor ts0 a b -> In (Some b) (s_result s) \/ exists f, In (Some b, f) stack;
  fi_seed : In (Some seed) (s_result s) \/ exists f, In (Some seed, f) stack
}.

Lemma clean_push_in t id from stack x f :
  In (x, f) (clean_push t id from stack) <->
  In (x, f) stack \/ (f = id /\ tid_eqb x from = false /\ exists i, tri_is_constrained t i = false /\ get3 (t_neighbors t) i = x).
Proof using.
  unfold clean_push, ix_all. simpl.
  assert (G : forall st i, In (x, f) (if negb (tri_is_constrained t i) then if negb (tid_eqb (get3 (t_neighbors t) i) from)
       then (get3 (t_neighbors t) i, id) :: st else st else st) <->
     In (x, f) st \/ (f = id /\ tid_eqb x from = false /\ tri_is_constrained t i = false /\ get3 (t_neighbors t) i = x)).
  { intros st i. destruct (tri_is_constrained t i) eqn:C; simpl; [intuition discriminate|].
    destruct (tid_eqb (get3 (t_neighbors t) i) from) eqn:Q; simpl.
    - split; auto. intros [H|(-> & H1 & _ & H2)]; auto. congruence.
    - split; [intros [H|H]; auto; injection H as <- <-; auto|]. intros [H|(-> & H1 & _ & H2)]; auto. left. congruence. }
  change (a0 (t_neighbors t)) with (get3 (t_neighbors t) I0).
  change (a1 (t_neighbors t)) with (get3 (t_neighbors t) I1).
  change (a2 (t_neighbors t)) with (get3 (t_neighbors t) I2).
  rewrite !G. split.
  - intros [[[H|H]|H]|H]; auto; right; destruct H as (-> & H1 & H2 & H3); eauto 10.
  - intros [H|(-> & H1 & i & H2 & H3)]; auto. destruct i; auto 10.
Qed.
Lemma clean_push_length t id from stack : length (clean_push t id from stack) <= 3 + length stack.
Proof using.
  unfold clean_push, ix_all. simpl.
  repeat match goal with |- context [if ?b then _ else _] => destruct b; simpl end; lia.
Qed.

Lemma tid_eqb_eq a b : tid_eqb a b = true <-> a = b.
Proof using.
  destruct a, b; simpl; try (split; congruence). rewrite Nat.eqb_eq. split; congruence.
Qed.
Lemma NoDup_Some_len l : NoDup l -> (forall t : option nat, In t l -> exists i, t = Some i /\ i < m) -> length l <= m.
Proof using.
  intros H K. rewrite <- (seq_length m 0), <- (map_length (@Some nat) (seq 0 m)). apply NoDup_incl_length; auto.
  intros t I. destruct (K t I) as (i & -> & L). apply in_map, in_seq. lia.
Qed.

Lemma clean_loop_wp seed s0 : forall fuel stack s, FI seed stack s0 s ->
  wp (clean_loop fuel stack) s
    (fun f s' => f = FFuel /\ s_trace s' = s_trace s0 /\ fuel <= length stack + 4 * (m - length (s_result s)))
    (fun _ s' => FI seed [] s0 s').
Proof using SO0.
  induction fuel as [|f IH]; intros stack s H; [apply wp_fuel; repeat split; [apply H|lia]|]. cbn [clean_loop].
  assert (IH' : forall stack' s', FI seed stack' s0 s' ->
     length stack' + 4 * (m - length (s_result s')) < length stack + 4 * (m - length (s_result s)) ->
     wp (clean_loop f stack') s'
      (fun f0 s'' => f0 = FFuel /\ s_trace s'' = s_trace s0 /\ S f <= length stack + 4 * (m - length (s_result s)))
      (fun _ s'' => FI seed [] s0 s'')).
  { intros stack' s' H' L'. eapply wp_mono; [apply (IH stack' s' H')| |auto]. simpl. intros f0 s'' (-> & -> & ?). repeat split; lia. }
  destruct stack as [|[a from] stack]; [apply wp_skip; auto|].
  destruct a as [a|]; cbn [tid_invalid].
  2:{ apply IH'; [|simpl; lia]. destruct H. constructor; auto.
      - intros x y I. apply fi_stack0. right; auto.
      - intros x y I J. destruct (fi_closed0 _ _ I J) as [?|(g & [E|?])]; eauto. discriminate.
      - destruct fi_seed0 as [?|(g & [E|?])]; eauto. discriminate. }
  destruct (fi_stack _ _ _ _ H (Some a) from (or_introl eq_refl)) as [X From].
  destruct (X a eq_refl) as [La Ra]. clear X.
  destruct SO0 as [L0 F0].
  destruct (nth_error_ex ts0 a ltac:(lia)) as [t0 T0].
  destruct (fi_marked _ _ _ _ H) as [Ls Mk].
  destruct (nth_error_ex (s_tris s) a ltac:(lia)) as [t T].
  destruct (Mk a t0 t T0 T) as (Mp & Mn & Ma & Mi).
  apply wp_bind, wp_get_tris, wp_bind, wp_lift. simpl. rewrite T. simpl.
  destruct (t_interior t) eqn:It; cbn [negb].
  - (* already visited *)
    assert (Ia : In (Some a) (s_result s)) by tauto.
    apply IH'; [|simpl; lia]. destruct H. constructor; auto.
    + intros x y I. apply fi_stack0. right; auto.
    + intros x y I J. destruct (fi_closed0 _ _ I J) as [?|(g & [E|?])]; eauto. injection E as -> ->. auto.
    + destruct fi_seed0 as [?|(g & [E|?])]; eauto. injection E as -> ->. auto.
  - (* a new triangle *)
    assert (Na : ~ In (Some a) (s_result s)) by (intro Q; apply Mi in Q; congruence).
    apply wp_bind, wp_put_tris, wp_bind, wp_push_result. simpl.
    apply IH'.
    2:{ simpl. rewrite app_length. simpl.
        assert (length (s_result s ++ [Some a]) <= m).
        { apply NoDup_Some_len.
          - apply (Permutation_NoDup (Permutation_cons_append _ _)). constructor; auto. apply (fi_nodup _ _ _ _ H).
          - intros x I. apply in_app_iff in I as [I|[<-|[]]]; [|eauto].
            destruct (fi_range _ _ _ _ H _ I) as (i & -> & ? & ?). eauto. }
        rewrite app_length in H0. simpl in H0. pose proof (clean_push_length (with_interior t true) (Some a) from stack).
        lia. }
    assert (ON : forall b, open_neighbor ts0 a b <-> exists i, tri_is_constrained (with_interior t true) i = false /\
                  get3 (t_neighbors (with_interior t true)) i = Some b).
    { intro b. unfold open_neighbor, tri_is_constrained. simpl. rewrite Mn, Ma. split.
      - intros (t' & i & E & C & Nn). assert (t' = t0) by congruence. subst. eauto.
      - intros (i & C & Nn). eauto. }
    destruct H. constructor; simpl; auto.
    + split; [rewrite list_set_length; auto|]. intros i t1 t2 E1 E2. rewrite nth_error_list_set in E2.
      rewrite in_app_iff. simpl.
      destruct (Nat.eqb_spec a i) as [<-|Ni].
      * destruct (a <? length (s_tris s)); [|discriminate]. injection E2 as <-. assert (t1 = t0) by congruence. subst t1. simpl.
        repeat split; auto.
      * destruct (Mk i t1 t2 E1 E2) as (P1 & P2 & P3 & P4). repeat split; auto; rewrite P4.
        { intros; auto. } { intros [?|[E|[]]]; auto. congruence. }
    + apply (Permutation_NoDup (Permutation_cons_append _ _)). constructor; auto.
    + intros x I. apply in_app_iff in I as [I|[<-|[]]]; auto. eauto.
    + intros x y I. apply clean_push_in in I as [I|(-> & Q & i & C & Nn)].
      * destruct (fi_stack0 x y (or_intror I)) as [P1 P2]. split; auto. rewrite in_app_iff. tauto.
      * split; [|right; apply in_app_iff; simpl; auto]. intros b ->.
        assert (O : open_neighbor ts0 a b) by (apply ON; eauto). split; [|econstructor; eauto].
        destruct O as (t' & j & E & _ & Nb). assert (TO N m t') as (_ & Vn & _) by (eapply SO_nth; eauto).
        specialize (Vn j). unfold NB in Vn. rewrite Nb in Vn. exact Vn.
    + intros x y I O. apply in_app_iff in I as [I|[E|[]]].
      * destruct (fi_closed0 _ _ I O) as [J|(g & [J|J])].
        -- left. apply in_app_iff. auto.
        -- injection J as -> ->. left. apply in_app_iff. simpl; auto.
        -- right. exists g. apply clean_push_in. auto.
      * injection E as <-. destruct (tid_eqb (Some y) from) eqn:Q.
        -- apply tid_eqb_eq in Q. subst from. destruct From as [?|J]; [discriminate|]. left. apply in_app_iff; auto.
        -- right. exists (Some a). apply clean_push_in. right. split; auto. split; auto. apply ON; auto.
    + rewrite in_app_iff. destruct fi_seed0 as [J|(g & [J|J])]; auto.
      * injection J as -> ->. simpl; auto.
      * right. exists g. apply clean_push_in. auto.
Qed.

(** the whole flood fill *)
Lemma clean_mesh_wp fuel seed s : s_tris s = ts0 -> s_result s = [] -> seed < m ->
  wp (clean_mesh fuel (Some seed)) s (fun f s' => f = FFuel /\ s_trace s' = s_trace s /\ fuel <= 4 * m + 1)
    (fun _ s' => marked ts0 (s_tris s') (s_result s') /\ s_front s' = s_front s /\ s_trace s' = s_trace s /\
       NoDup (s_result s') /\ (forall t, In t (s_result s') <-> exists i, t = Some i /\ region ts0 seed i) /\
       (forall t, In t (s_result s') -> exists i, t = Some i /\ i < m)).
Proof using SO0.
  intros T R Ls. unfold clean_mesh. eapply wp_mono; [apply (clean_loop_wp seed s)| |].
  - destruct SO0 as [L0 F0]. rewrite Forall_forall in F0. constructor; auto; rewrite ?R, ?T; simpl.
    + split; auto. intros i a b E1 E2. assert (a = b) by congruence. subst b.
      assert (TO N m a) as (_ & _ & I) by (apply F0; eapply nth_error_In; eauto). rewrite I. repeat split; auto; intro K; try discriminate; tauto.
    + constructor.
    + tauto.
    + intros a f [E|[]]. injection E as <- <-. split; auto. intros i E. injection E as <-. split; auto. constructor.
    + tauto.
    + eauto.
  - simpl. rewrite R. simpl. intros f s' (-> & -> & ?). repeat split; lia.
  - intros u s' H. destruct H. split; auto. split; auto. split; auto. split; auto. split.
    + intro t. split; [intro I; destruct (fi_range0 t I) as (i & -> & _ & ?); eauto|].
      intros (i & -> & Rg). induction Rg as [|b c Rg IH O].
      * destruct fi_seed0 as [?|(f & [])]; auto.
      * destruct (fi_closed0 _ _ IH O) as [?|(f & [])]; auto.
    + intros t I. destruct (fi_range0 t I) as (i & -> & ? & _); eauto.
Qed.
End S.
