(** * Loader: model of src/loader.rs

    A text is the list of its Unicode scalar values.  [str::parse::<Float>]
    is an external function, the section variable [parse_float]. *)
From Coq Require Import List Arith NArith Bool.
From Verif Require Import Base Num Shape Points Cdt.
Import ListNotations.
Open Scope N_scope.

Definition char := N.
Definition text := list char.
Definition LF : char := 10.
Definition CR : char := 13.

(** [char::is_whitespace]: the Unicode property White_Space *)
Definition is_whitespace (c : char) : bool :=
  ((9 <=? c) && (c <=? 13)) || (c =? 32) || (c =? 133) || (c =? 160) || (c =? 5760)
  || ((8192 <=? c) && (c <=? 8202)) || (c =? 8232) || (c =? 8233) || (c =? 8239)
  || (c =? 8287) || (c =? 12288).

(** [str::lines]: split after each LF, drop the LF and a CR before it; a
    last piece without LF counts when it is not empty.  [acc] is the current
    line reversed. *)
Definition strip_cr (rev_line : text) : text :=
  match rev_line with
  | c :: l => if c =? CR then rev l else rev rev_line
  | [] => []
  end.
Fixpoint lines_from (acc : text) (t : text) : list text :=
  match t with
  | [] => match acc with [] => [] | _ => [rev acc] end
  | c :: t' => if c =? LF then strip_cr acc :: lines_from [] t' else lines_from (c :: acc) t'
  end.
Definition lines (t : text) : list text := lines_from [] t.

(** [str::split_whitespace]: the maximal runs of non-whitespace *)
Fixpoint words_from (acc : text) (t : text) : list text :=
  match t with
  | [] => match acc with [] => [] | _ => [rev acc] end
  | c :: t' =>
      if is_whitespace c then
        match acc with [] => words_from [] t' | _ => rev acc :: words_from [] t' end
      else words_from (c :: acc) t'
  end.
Definition split_whitespace (t : text) : list text := words_from [] t.

(** loader.rs:41, 45 *)
Definition HOLE : text := [72; 79; 76; 69].
Definition STEINER : text := [83; 84; 69; 73; 78; 69; 82].
Fixpoint text_eqb (a b : text) : bool :=
  match a, b with
  | [], [] => true
  | x :: a', y :: b' => (x =? y) && text_eqb a' b'
  | _, _ => false
  end.

Close Scope N_scope.

(** loader.rs:21-27 *)
Inductive ParseState := PPolygon | PHole | PSteiner.

(** What opening and reading the file gives (loader.rs:31-33) *)
Inductive file := FCannotOpen | FUnreadable | FText (t : text).

(** loader.rs:3-9; only [Io] is ever built *)
Inductive LoaderError := ErrIo | ErrInner.

Section S.
Context {A : Arith}.
Variable parse_float : text -> option num.

(** loader.rs:73-84; it never returns [Err] *)
Definition parse_point (line : text) : res (option Point) :=
  match line with
  | [] => Done None
  | _ =>
      let ws := split_whitespace line in
      let! x := unwrap P_loader_unwrap (nth_error ws 0) in
      let! y := unwrap P_loader_unwrap (nth_error ws 1) in
      let! x := unwrap P_loader_unwrap (parse_float x) in
      let! y := unwrap P_loader_unwrap (parse_float y) in
      Done (Some (mkPoint x y))
  end.

(** [holes.last_mut().unwrap().push(p)] (loader.rs:58-59) *)
Fixpoint push_last {T} (l : list (list T)) (p : T) : res (list (list T)) :=
  match l with
  | [] => Panic P_loader_hole
  | [h] => Done [h ++ [p]]
  | h :: l' => let! r := push_last l' p in Done (h :: r)
  end.

(** loader.rs:36-38 *)
Record parsed := mkParsed { pa_polygon : list Point; pa_holes : list (list Point); pa_steiner : list Point }.

(** loader.rs:40-65 *)
Fixpoint load_lines (state : ParseState) (acc : parsed) (l : list text) : res parsed :=
  match l with
  | [] => Done acc
  | line :: l' =>
      if text_eqb line HOLE then
        load_lines PHole (mkParsed (pa_polygon acc) (pa_holes acc ++ [[]]) (pa_steiner acc)) l'
      else if text_eqb line STEINER then load_lines PSteiner acc l'
      else
        let! o := parse_point line in
        match o with
        | None => load_lines state acc l'
        | Some p =>
            match state with
            | PPolygon =>
                load_lines state (mkParsed (pa_polygon acc ++ [p]) (pa_holes acc) (pa_steiner acc)) l'
            | PHole =>
                let! hs := push_last (pa_holes acc) p in
                load_lines state (mkParsed (pa_polygon acc) hs (pa_steiner acc)) l'
            | PSteiner =>
                load_lines state (mkParsed (pa_polygon acc) (pa_holes acc) (pa_steiner acc ++ [p])) l'
            end
        end
  end.

(** lib.rs:28-36: a [Vec<Point>] as a source *)
Definition unit_source (ps : list Point) : source unit := (ps, repeat tt (length ps)).

(** loader.rs:67-69 *)
Definition build_parsed (pa : parsed) : res (Builder unit) :=
  let! b := builder_new unit (unit_source (pa_polygon pa)) in
  let! b := add_holes unit b (map unit_source (pa_holes pa)) in
  Done (add_steiner_points unit b (unit_source (pa_steiner pa))).

(** loader.rs:30-70 *)
Definition load (f : file) : res (Builder unit + LoaderError) :=
  match f with
  | FCannotOpen => Done (inr ErrIo)
  | FUnreadable => Panic P_loader_unwrap
  | FText t =>
      let! pa := load_lines PPolygon (mkParsed [] [] []) (lines t) in
      let! b := build_parsed pa in
      Done (inl b)
  end.
End S.
