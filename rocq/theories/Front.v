(** * Front: model of src/advancing_front/{mod,vec_backed}.rs *)
From Coq Require Import List Arith Bool.
From Verif Require Import Base Num Shape Points.
Import ListNotations.

Section S.
Context {A : Arith}.
Variable dbg : bool.

(** vec_backed.rs:17-20, 44, 84-88 *)
Record Entry := mkEntry { en_key : Point; en_pid : pid; en_tri : tid }.

(** vec_backed.rs:7-15.  The [cfg(test)] hit/miss counters are not modelled. *)
Record AdvancingFront := mkFront { nodes : list Entry; access_cache : option (Point * nat) }.

(** mod.rs:11-15 *)
Record NodeId := mkNodeId { ni_pid : pid; ni_point : Point; ni_hint : nat }.
(** mod.rs:30-39; the borrowed front is passed separately *)
Record NodeRef := mkNodeRef { nr_pid : pid; nr_point : Point; nr_tri : tid; nr_index : nat }.

(** mod.rs:63-69 *)
Definition get_node_id (n : NodeRef) : NodeId := mkNodeId (nr_pid n) (nr_point n) (nr_index n).

(** vec_backed.rs:31-39; [into_option] (triangles.rs:30-36) is the identity here *)
Definition to_node (e : Entry) (index : nat) : NodeRef :=
  mkNodeRef (en_pid e) (en_key e) (en_tri e) index.

(** vec_backed.rs:54-63 *)
Definition key_partial_cmp (a b : Point) : option comparison :=
  match f_partial_cmp (px a) (px b) with
  | None | Some Eq => f_partial_cmp (py a) (py b)
  | x_order => x_order
  end.
(** vec_backed.rs:65-69 *)
Definition key_cmp (a b : Point) : comparison :=
  match key_partial_cmp a b with Some c => c | None => Eq end.

(** [Result<usize, usize>] of a search *)
Inductive found := FOk (i : nat) | FErr (i : nat).

(** [slice::binary_search_by_key] of the standard library, on the sub-slice
    [left, right) of [l]; [fuel] bounds the number of halvings and is always
    taken to be the length, which suffices (lemma in FrontSpec.v). *)
Fixpoint bsearch_loop (fuel : nat) (l : list Entry) (key : Point) (left right : nat) : found :=
  match fuel with
  | O => FErr left
  | S f =>
      if left <? right then
        let mid := left + (right - left) / 2 in
        match nth_error l mid with
        | None => FErr left
        | Some e =>
            match key_cmp (en_key e) key with
            | Lt => bsearch_loop f l key (mid + 1) right
            | Gt => bsearch_loop f l key left mid
            | Eq => FOk mid
            end
        end
      else FErr left
  end.
Definition bsearch (l : list Entry) (key : Point) : found :=
  bsearch_loop (S (length l)) l key 0 (length l).

(** vec_backed.rs:293-295 *)
Definition search_by_key (af : AdvancingFront) (key : Point) : found := bsearch (nodes af) key.

Definition found_add (f : found) (i : nat) : found :=
  match f with FOk j => FOk (j + i) | FErr j => FErr (j + i) end.

(** vec_backed.rs:297-376 *)
Definition search_by_key_with_cache (af : AdvancingFront) (key : Point) : res found :=
  match access_cache af with
  | Some (p, i) =>
      match key_cmp p key with
      | Eq => Done (FOk i)
      | Gt =>
          (* nodes[i - 1]: i = 0 underflows (debug) or indexes usize::MAX
             (release); both panic *)
          let! e := unwrap P_front_index (match i with O => None | S j => nth_error (nodes af) j end) in
          match key_cmp (en_key e) key with
          | Eq => Done (FOk (i - 1))
          | Lt => Done (FErr i)
          | Gt =>
              (* nodes[..i] *)
              let! _ := rassert P_front_index (i <=? length (nodes af)) in
              Done (bsearch (firstn i (nodes af)) key)
          end
      | Lt =>
          if i <? length (nodes af) then
            let! e := unwrap P_front_index (nth_error (nodes af) (i + 1)) in
            match key_cmp (en_key e) key with
            | Gt => Done (FErr (i + 1))
            | _ =>
                let! _ := rassert P_front_index (i <=? length (nodes af)) in
                Done (found_add (bsearch (skipn i (nodes af)) key) i)
            end
          else
            let! _ := rassert P_front_index (i <=? length (nodes af)) in
            Done (found_add (bsearch (skipn i (nodes af)) key) i)
      end
  | None => Done (search_by_key af key)
  end.

(** vec_backed.rs:380-391 *)
Definition resolve_index_for_id (af : AdvancingFront) (id : NodeId) : found :=
  match nth_error (nodes af) (ni_hint id) with
  | Some e => if en_pid e =? ni_pid id then FOk (ni_hint id)
              else search_by_key af (ni_point id)
  | None => search_by_key af (ni_point id)
  end.

(** [sort_unstable_by_key] on the three initial nodes (vec_backed.rs:128) *)
Fixpoint key_insert (x : Entry) (l : list Entry) : list Entry :=
  match l with
  | [] => [x]
  | z :: l' => match key_cmp (en_key z) (en_key x) with Gt => x :: l | _ => z :: key_insert x l' end
  end.
Fixpoint key_sort (acc l : list Entry) : list Entry :=
  match l with [] => acc | x :: l' => key_sort (key_insert x acc) l' end.

(** vec_backed.rs:93-138 *)
Definition front_new (t : InnerTriangle) (id : tid) (ps : Points) : res AdvancingFront :=
  let! first_point := unwrap P_front_new (get_point ps (a1 (t_points t))) in
  let! middle_point := unwrap P_front_new (get_point ps (a0 (t_points t))) in
  let! tail_node := unwrap P_front_new (get_point ps (a2 (t_points t))) in
  let ns := [ mkEntry first_point (a1 (t_points t)) id;
              mkEntry middle_point (a0 (t_points t)) id;
              mkEntry tail_node (a2 (t_points t)) None ] in
  Done (mkFront (key_sort [] ns) None).

Definition set_tri (e : Entry) (t : tid) : Entry := mkEntry (en_key e) (en_pid e) t.

(** vec_backed.rs:142-159 *)
Definition front_insert (af : AdvancingFront) (p_id : pid) (p : Point) (t : tid) : res AdvancingFront :=
  let! _ := (if dbg then rassert P_front_dbg (negb (tid_invalid t)) else Done tt) in
  match search_by_key af p with
  | FOk idx =>
      let! e := unwrap P_front_index (nth_error (nodes af) idx) in
      Done (mkFront (list_set (nodes af) idx (mkEntry (en_key e) p_id t)) (Some (p, idx)))
  | FErr idx =>
      Done (mkFront (list_insert (nodes af) idx (mkEntry p p_id t)) (Some (p, idx)))
  end.

(** vec_backed.rs:164-182 *)
Definition update_and_delete_by_index (af : AdvancingFront) (update_index : nat) (p_id : pid)
    (t : tid) (delete_index : nat) : res AdvancingFront :=
  let! _ := (if dbg then rassert P_front_dbg (negb (tid_invalid t)) else Done tt) in
  let! e := unwrap P_front_update_unwrap (nth_error (nodes af) update_index) in
  let! _ := (if dbg then rassert P_front_dbg (en_pid e =? p_id) else Done tt) in
  let ns := list_set (nodes af) update_index (set_tri e t) in
  let! _ := rassert P_front_remove (delete_index <? length ns) in
  Done (mkFront (list_remove ns delete_index) None).

(** vec_backed.rs:185-187 *)
Definition front_nth (af : AdvancingFront) (n : nat) : option NodeRef :=
  match nth_error (nodes af) n with Some e => Some (to_node e n) | None => None end.

(** vec_backed.rs:200-209.  [idx - 1] at idx = 0: overflow panic in debug
    builds, wrap to usize::MAX and an unchecked access in release builds. *)
Definition locate_node (af : AdvancingFront) (p : Point) : res NodeRef :=
  let! idx := match search_by_key af p with
              | FErr O => if dbg then Panic P_locate_underflow else Ub U_front
              | FErr (S j) => Done j
              | FOk i => Done i
              end in
  let! e := get_unchecked U_front (nodes af) idx in
  Done (to_node e idx).

(** vec_backed.rs:212-217 *)
Definition get_node (af : AdvancingFront) (p : Point) : res (option NodeRef) :=
  let! f := search_by_key_with_cache af p in
  match f with
  | FErr _ => Done None
  | FOk i => let! e := get_unchecked U_front (nodes af) i in Done (Some (to_node e i))
  end.

(** vec_backed.rs:220-228 *)
Definition get_node_with_cache (af : AdvancingFront) (p : Point) : res (option NodeRef * AdvancingFront) :=
  let! f := search_by_key_with_cache af p in
  match f with
  | FErr _ => Done (None, af)
  | FOk i =>
      let af' := mkFront (nodes af) (Some (p, i)) in
      let! e := get_unchecked U_front (nodes af') i in
      Done (Some (to_node e i), af')
  end.

(** vec_backed.rs:231-235 *)
Definition get_node_with_id (af : AdvancingFront) (id : NodeId) : res (option NodeRef) :=
  match resolve_index_for_id af id with
  | FErr _ => Done None
  | FOk i => let! e := get_unchecked U_front (nodes af) i in Done (Some (to_node e i))
  end.

(** vec_backed.rs:238-241 *)
Definition update_triangle (af : AdvancingFront) (p : Point) (t : tid) : res AdvancingFront :=
  let! f := search_by_key_with_cache af p in
  match f with
  | FErr _ => Panic P_update_triangle
  | FOk i =>
      let! e := unwrap P_front_index (nth_error (nodes af) i) in
      Done (mkFront (list_set (nodes af) i (set_tri e t)) (access_cache af))
  end.

(** vec_backed.rs:245-256 *)
Definition locate_next_node (af : AdvancingFront) (id : NodeId) : res (option NodeRef) :=
  let idx := match resolve_index_for_id af id with FOk i => i + 1 | FErr i => i end in
  if idx <? length (nodes af) then
    let! e := get_unchecked U_front (nodes af) idx in Done (Some (to_node e idx))
  else Done None.

(** vec_backed.rs:260-267; the index expression is in range by the test *)
Definition next_node (af : AdvancingFront) (n : NodeRef) : option NodeRef :=
  let idx := nr_index n + 1 in
  if idx <? length (nodes af) then
    match nth_error (nodes af) idx with Some e => Some (to_node e idx) | None => None end
  else None.

(** vec_backed.rs:271-279 *)
Definition locate_prev_node (af : AdvancingFront) (id : NodeId) : res (option NodeRef) :=
  match (match resolve_index_for_id af id with FOk i => i | FErr i => i end) with
  | O => Done None
  | S j => let! e := get_unchecked U_front (nodes af) j in Done (Some (to_node e j))
  end.

(** vec_backed.rs:283-291 *)
Definition prev_node (af : AdvancingFront) (n : NodeRef) : res (option NodeRef) :=
  match nr_index n with
  | O => Done None
  | S j => let! e := get_unchecked U_front (nodes af) j in Done (Some (to_node e j))
  end.
End S.
