(** * Monad: weakest preconditions for the sweeper monad *)
From Coq Require Import List Arith Bool Lia.
From Verif Require Import Base Num Shape Points Triangles Front Sweeper.
Import ListNotations.

Inductive failure := FPanic (p : psite) | FUb (u : usite) | FFuel.

(** outcome predicate for pure computations *)
Definition okr {T} (r : res T) (F : failure -> Prop) (Q : T -> Prop) : Prop :=
  match r with
  | Done x => Q x
  | Panic p => F (FPanic p)
  | Ub u => F (FUb u)
  | OutOfFuel => F FFuel
  end.

Lemma okr_bind {T U} (r : res T) (k : T -> res U) F Q :
  okr r F (fun x => okr (k x) F Q) -> okr (rbind r k) F Q.
Proof. destruct r; simpl; auto. Qed.
Lemma okr_mono {T} (r : res T) (F F' : failure -> Prop) (Q Q' : T -> Prop) :
  okr r F Q -> (forall f, F f -> F' f) -> (forall x, Q x -> Q' x) -> okr r F' Q'.
Proof. destruct r; simpl; auto. Qed.
Lemma okr_unwrap {T} s (o : option T) (F : failure -> Prop) (Q : T -> Prop) :
  (forall x, o = Some x -> Q x) -> (o = None -> F (FPanic s)) -> okr (unwrap s o) F Q.
Proof. destruct o; simpl; auto. Qed.
Lemma okr_assert s b (F : failure -> Prop) (Q : unit -> Prop) :
  (b = true -> Q tt) -> (b = false -> F (FPanic s)) -> okr (rassert s b) F Q.
Proof. destruct b; simpl; auto. Qed.
Lemma okr_get {T} s (l : list T) i (F : failure -> Prop) (Q : T -> Prop) :
  i < length l -> (forall x, nth_error l i = Some x -> Q x) -> okr (get_unchecked s l i) F Q.
Proof.
  intros H K. unfold get_unchecked. destruct (nth_error l i) eqn:E; simpl; auto.
  apply nth_error_None in E; lia.
Qed.
Lemma okr_done {T} (r : res T) (F : failure -> Prop) (Q : T -> Prop) x : okr r F Q -> r = Done x -> Q x.
Proof. intros H ->; exact H. Qed.

Section S.
Context {A : Arith}.
Definition wp {T} (m : M T) (s : Sweeper) (F : failure -> Sweeper -> Prop) (Q : T -> Sweeper -> Prop) : Prop :=
  match m s with
  | (Done x, s') => Q x s'
  | (Panic p, s') => F (FPanic p) s'
  | (Ub u, s') => F (FUb u) s'
  | (OutOfFuel, s') => F FFuel s'
  end.

Lemma wp_ret {T} (x : T) s (F : failure -> Sweeper -> Prop) (Q : T -> Sweeper -> Prop) : Q x s -> wp (ret x) s F Q.
Proof. auto. Qed.
Lemma wp_skip s (F : failure -> Sweeper -> Prop) (Q : unit -> Sweeper -> Prop) : Q tt s -> wp skip s F Q.
Proof. auto. Qed.
Lemma wp_bind {T U} (m : M T) (k : T -> M U) s (F : failure -> Sweeper -> Prop) (Q : U -> Sweeper -> Prop) :
  wp m s F (fun x s' => wp (k x) s' F Q) -> wp (bind m k) s F Q.
Proof. unfold wp, bind. destruct (m s) as [[x|p|u|] s']; auto. Qed.
Lemma wp_lift {T} (r : res T) s (F : failure -> Sweeper -> Prop) (Q : T -> Sweeper -> Prop) :
  okr r (fun f => F f s) (fun x => Q x s) -> wp (lift r) s F Q.
Proof. unfold wp, lift. destruct r; auto. Qed.
Lemma wp_get_tris s (F : failure -> Sweeper -> Prop) (Q : TriangleStore -> Sweeper -> Prop) : Q (s_tris s) s -> wp get_tris s F Q.
Proof. auto. Qed.
Lemma wp_get_front s (F : failure -> Sweeper -> Prop) (Q : AdvancingFront -> Sweeper -> Prop) : Q (s_front s) s -> wp get_front s F Q.
Proof. auto. Qed.
Lemma wp_put_tris ts s (F : failure -> Sweeper -> Prop) (Q : unit -> Sweeper -> Prop) :
  Q tt (mkSw ts (s_front s) (s_result s) (s_trace s)) -> wp (put_tris ts) s F Q.
Proof. auto. Qed.
Lemma wp_put_front af s (F : failure -> Sweeper -> Prop) (Q : unit -> Sweeper -> Prop) :
  Q tt (mkSw (s_tris s) af (s_result s) (s_trace s)) -> wp (put_front af) s F Q.
Proof. auto. Qed.
Lemma wp_push_result t s (F : failure -> Sweeper -> Prop) (Q : unit -> Sweeper -> Prop) :
  Q tt (mkSw (s_tris s) (s_front s) (s_result s ++ [t]) (s_trace s)) -> wp (push_result t) s F Q.
Proof. auto. Qed.
Lemma wp_emit e s (F : failure -> Sweeper -> Prop) (Q : unit -> Sweeper -> Prop) :
  Q tt (mkSw (s_tris s) (s_front s) (s_result s) (mkCb e (s_tris s) (s_front s) (s_result s) :: s_trace s)) ->
  wp (emit e) s F Q.
Proof. auto. Qed.
Lemma wp_fuel {T} s (F : failure -> Sweeper -> Prop) (Q : T -> Sweeper -> Prop) : F FFuel s -> wp fail_fuel s F Q.
Proof. auto. Qed.
Lemma wp_panic {T} p s (F : failure -> Sweeper -> Prop) (Q : T -> Sweeper -> Prop) : F (FPanic p) s -> wp (panic p) s F Q.
Proof. auto. Qed.
Lemma wp_mono {T} (m : M T) s (F F' : failure -> Sweeper -> Prop) (Q Q' : T -> Sweeper -> Prop) :
  wp m s F Q -> (forall f s', F f s' -> F' f s') -> (forall x s', Q x s' -> Q' x s') -> wp m s F' Q'.
Proof. unfold wp. destruct (m s) as [[x|p|u|] s']; auto. Qed.
Lemma wp_run {T} (m : M T) s (F : failure -> Sweeper -> Prop) (Q : T -> Sweeper -> Prop) r s' : wp m s F Q -> m s = (r, s') -> okr r (fun f => F f s') (fun x => Q x s').
Proof. unfold wp. intros H E. rewrite E in H. destruct r; exact H. Qed.
Lemma wp_and {T} (m : M T) s (F F' : failure -> Sweeper -> Prop) (Q Q' : T -> Sweeper -> Prop) :
  wp m s F Q -> wp m s F' Q' -> wp m s (fun f s' => F f s' /\ F' f s') (fun x s' => Q x s' /\ Q' x s').
Proof. unfold wp. destruct (m s) as [[x|p|u|] s']; auto. Qed.
End S.
