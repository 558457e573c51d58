(** * PropsLoader: C32, C33 - the file loader *)
From Coq Require Import List Arith NArith ZArith Bool Lia.
From Verif Require Import Base Num Shape Points Cdt F64 Spec Lists BuilderSpec History FloatLaws Loader.
Import ListNotations.

(** ** A separate description of well-formed files *)
Definition blank (c : char) : Prop := is_whitespace c = true /\ c <> LF /\ c <> CR.
Definition printable (c : char) : Prop := is_whitespace c = false.
Definition no_eol (c : char) : Prop := c <> LF /\ c <> CR.

(** a line: empty, or two numbers with any spacing, anything may follow the
    second one after a blank *)
Inductive line_spec := LEmpty | LPoint (lead x sep y trail : text).
Definition line_ok (l : line_spec) : Prop :=
  match l with
  | LEmpty => True
  | LPoint lead x sep y trail =>
      Forall blank lead /\ Forall printable x /\ x <> [] /\ Forall blank sep /\ sep <> [] /\
      Forall printable y /\ y <> [] /\ Forall no_eol trail /\
      (match trail with [] => True | c :: _ => blank c end)
  end.
Definition line_text (l : line_spec) : text :=
  match l with LEmpty => [] | LPoint lead x sep y trail => lead ++ x ++ sep ++ y ++ trail end.

Inductive marker := MHole | MSteiner.
Definition marker_text (m : marker) : text := match m with MHole => HOLE | MSteiner => STEINER end.

(** the polygon's lines, then sections *)
Record file_spec := mkFile { f_polygon : list line_spec; f_sections : list (marker * list line_spec) }.
Definition file_lines (f : file_spec) : list text :=
  map line_text (f_polygon f) ++ flat_map (fun s => marker_text (fst s) :: map line_text (snd s)) (f_sections f).
Definition file_ok (f : file_spec) : Prop :=
  Forall line_ok (f_polygon f) /\ Forall (fun s => Forall line_ok (snd s)) (f_sections f).

(** lines joined into a text: each ended by LF or CRLF; the last line end may
    be missing when the last line is not empty *)
Inductive eol := Unix | Dos.
Definition eol_text (e : eol) : text := match e with Unix => [LF] | Dos => [CR; LF] end.
Inductive joined : list text -> text -> Prop :=
| joined_nil : joined [] []
| joined_last l : l <> [] -> joined [l] l
| joined_cons l e ls t : joined ls t -> joined (l :: ls) (l ++ eol_text e ++ t).

Section Spec.
Context {A : Arith}.
Variable parse_float : text -> option num.
(** the points the lines of a section denote *)
Fixpoint points_of (ls : list line_spec) (ps : list Point) : Prop :=
  match ls with
  | [] => ps = []
  | LEmpty :: ls' => points_of ls' ps
  | LPoint _ x _ y _ :: ls' =>
      match ps with
      | p :: ps' => parse_float x = Some (px p) /\ parse_float y = Some (py p) /\ points_of ls' ps'
      | [] => False
      end
  end.
(** holes: one per HOLE section; Steiner points: all STEINER sections together *)
Inductive sections_of : list (marker * list line_spec) -> list (list Point) -> list Point -> Prop :=
| sec_nil : sections_of [] [] []
| sec_hole ls ss ps hs st : points_of ls ps -> sections_of ss hs st ->
    sections_of ((MHole, ls) :: ss) (ps :: hs) st
| sec_steiner ls ss ps hs st : points_of ls ps -> sections_of ss hs st ->
    sections_of ((MSteiner, ls) :: ss) hs (ps ++ st).
End Spec.

(** ** Proofs *)
Lemma text_eqb_spec a b : text_eqb a b = true <-> a = b.
Proof.
  revert b; induction a as [|x a IH]; intros [|y b]; simpl; split; try congruence; auto.
  - rewrite andb_true_iff, N.eqb_eq, IH. intros [-> ->]; auto.
  - intro H; injection H as -> ->. rewrite N.eqb_refl. apply IH; auto.
Qed.

Lemma lines_from_clean l : Forall no_eol l -> forall acc t, lines_from acc (l ++ t) = lines_from (rev l ++ acc) t.
Proof.
  induction 1 as [|c l [H1 H2] H IH]; intros acc t; simpl; auto.
  destruct (N.eqb_spec c LF); [congruence|]. rewrite IH. rewrite <- app_assoc. reflexivity.
Qed.
Lemma strip_clean l : Forall no_eol l -> strip_cr (rev l) = l.
Proof.
  intro H. unfold strip_cr. destruct (rev l) as [|c r] eqn:E.
  - apply (f_equal (@rev N)) in E. rewrite rev_involutive in E. auto.
  - assert (In c l) as I by (rewrite in_rev, E; left; auto).
    rewrite Forall_forall in H. destruct (H c I). destruct (N.eqb_spec c CR); [congruence|].
    rewrite <- E. apply rev_involutive.
Qed.
Lemma lines_joined ls t : Forall (Forall no_eol) ls -> joined ls t -> lines t = ls.
Proof.
  intros F J. unfold lines. induction J as [|l Ne|l e ls t J IH].
  - reflexivity.
  - apply Forall_inv in F. rewrite <- (app_nil_r l) at 1. rewrite lines_from_clean by auto. rewrite app_nil_r.
    simpl. destruct (rev l) eqn:E; [|rewrite <- E, rev_involutive; auto].
    apply (f_equal (@rev N)) in E. rewrite rev_involutive in E. destruct (Ne E).
  - inversion F; subst. rewrite lines_from_clean by auto. rewrite app_nil_r.
    destruct e; simpl.
    + rewrite strip_clean by auto. f_equal; auto.
    + f_equal; [apply rev_involutive|auto].
Qed.

Lemma blank_ws c : blank c -> is_whitespace c = true. Proof. intros [H _]; auto. Qed.
Lemma words_lead l t : Forall blank l -> words_from [] (l ++ t) = words_from [] t.
Proof. induction 1 as [|c l [H _] _ IH]; simpl; auto. rewrite H. auto. Qed.
Lemma words_word l : Forall printable l -> forall acc t, words_from acc (l ++ t) = words_from (rev l ++ acc) t.
Proof.
  induction 1 as [|c l H _ IH]; intros acc t; simpl; auto. rewrite H, IH, <- app_assoc. reflexivity.
Qed.
Lemma words_end w t : w <> [] -> (match t with [] => True | c :: _ => is_whitespace c = true end) ->
  exists rest, words_from (rev w) t = w :: rest /\ (forall t', t = t' -> rest = words_from [] t').
Proof.
  intros Ne H. assert (R : rev w <> []).
  { intro E. apply (f_equal (@rev N)) in E. rewrite rev_involutive in E. auto. }
  destruct t as [|c t]; simpl.
  - destruct (rev w) eqn:E; [congruence|]. rewrite <- E, rev_involutive. exists []. split; auto. intros t' <-. reflexivity.
  - rewrite H. destruct (rev w) eqn:E; [congruence|]. rewrite <- E, rev_involutive. eexists. split; eauto.
    intros t' <-. simpl. rewrite H. auto.
Qed.
Lemma words_line lead x sep y trail : line_ok (LPoint lead x sep y trail) ->
  exists rest, split_whitespace (lead ++ x ++ sep ++ y ++ trail) = x :: y :: rest.
Proof.
  intros (B1 & P1 & N1 & B2 & N2 & P2 & N3 & _ & B3). unfold split_whitespace.
  rewrite words_lead by auto. rewrite words_word by auto. rewrite app_nil_r.
  destruct (words_end x (sep ++ y ++ trail) N1) as (r & -> & Hr).
  { destruct sep as [|c sep]; [congruence|]. simpl. apply blank_ws. apply Forall_inv in B2. auto. }
  rewrite (Hr _ eq_refl). rewrite words_lead by auto. rewrite words_word by auto. rewrite app_nil_r.
  destruct (words_end y trail N3) as (r' & -> & _); eauto.
  destruct trail; auto. apply blank_ws; auto.
Qed.

Lemma printable_no_eol c : printable c -> no_eol c.
Proof. unfold printable, no_eol. intro H. split; intros ->; discriminate. Qed.
Lemma blank_no_eol c : blank c -> no_eol c.
Proof. intros (_ & ? & ?). split; auto. Qed.
Lemma line_no_eol l : line_ok l -> Forall no_eol (line_text l).
Proof.
  destruct l as [|lead x sep y trail]; simpl; [constructor|].
  intros (B1 & P1 & _ & B2 & _ & P2 & _ & T & _).
  repeat (apply Forall_app; split); auto; (eapply Forall_impl; [|eassumption]); auto using printable_no_eol, blank_no_eol.
Qed.
Lemma marker_no_eol m : Forall no_eol (marker_text m).
Proof. destruct m; repeat constructor; discriminate. Qed.
Lemma file_no_eol f : file_ok f -> Forall (Forall no_eol) (file_lines f).
Proof.
  intros [H1 H2]. unfold file_lines. apply Forall_app. split.
  - apply Forall_forall. intros l H. apply in_map_iff in H as (x & <- & H). apply line_no_eol.
    rewrite Forall_forall in H1; auto.
  - apply Forall_forall. intros l H. apply in_flat_map in H as ([m ls] & H & [<-|K]); [apply marker_no_eol|].
    apply in_map_iff in K as (x & <- & K). apply line_no_eol. rewrite Forall_forall in H2. apply H2 in H.
    simpl in *. rewrite Forall_forall in H; auto.
Qed.

(** a line with numbers is never taken for a marker or for an empty line *)
Lemma split_marker m : split_whitespace (marker_text m) = [marker_text m].
Proof. destruct m; reflexivity. Qed.
Lemma point_line_not_marker lead x sep y trail m : line_ok (LPoint lead x sep y trail) ->
  lead ++ x ++ sep ++ y ++ trail <> marker_text m.
Proof.
  intros H E. destruct (words_line _ _ _ _ _ H) as (r & W). rewrite E, split_marker in W. discriminate.
Qed.

Section S.
Context {A : Arith}.
Variable parse_float : text -> option num.

Lemma parse_point_line lead x sep y trail p : line_ok (LPoint lead x sep y trail) ->
  parse_float x = Some (px p) -> parse_float y = Some (py p) ->
  parse_point parse_float (lead ++ x ++ sep ++ y ++ trail) = Done (Some p).
Proof.
  intros H X Y. unfold parse_point. destruct (words_line _ _ _ _ _ H) as (r & W). rewrite W.
  destruct (lead ++ x ++ sep ++ y ++ trail) as [|c t] eqn:E.
  - exfalso. destruct H as (_ & _ & N & _). apply app_eq_nil in E as [_ E]. apply app_eq_nil in E as [E _]. auto.
  - simpl. rewrite X, Y. simpl. destruct p; reflexivity.
Qed.

(** pushing a section's points *)
Definition push_points (state : ParseState) (acc : parsed) (ps : list Point) : parsed :=
  match state with
  | PPolygon => mkParsed (pa_polygon acc ++ ps) (pa_holes acc) (pa_steiner acc)
  | PHole => mkParsed (pa_polygon acc)
      (removelast (pa_holes acc) ++ [last (pa_holes acc) [] ++ ps]) (pa_steiner acc)
  | PSteiner => mkParsed (pa_polygon acc) (pa_holes acc) (pa_steiner acc ++ ps)
  end.

Lemma push_last_ok {T} (l : list (list T)) p : l <> [] -> push_last l p = Done (removelast l ++ [last l [] ++ [p]]).
Proof.
  induction l as [|h l IH]; [congruence|]. intros _. destruct l as [|h' l]; [reflexivity|].
  change (push_last (h :: h' :: l) p) with (let! r := push_last (h' :: l) p in Done (h :: r)).
  rewrite IH by discriminate. reflexivity.
Qed.
Lemma push_points_app st acc ps ps' : push_points st (push_points st acc ps) ps' = push_points st acc (ps ++ ps').
Proof.
  destruct st; simpl; rewrite ?app_assoc; auto.
  rewrite removelast_last, last_last, <- ?app_assoc. reflexivity.
Qed.
Lemma push_points_nil st acc : (st = PHole -> pa_holes acc <> []) -> push_points st acc [] = acc.
Proof.
  destruct acc as [a b c]. destruct st; simpl; intro H; rewrite ?app_nil_r; auto.
  f_equal. symmetry. apply app_removelast_last. auto.
Qed.
Lemma push_points_holes st acc ps : (st = PHole -> pa_holes acc <> []) -> st = PHole -> pa_holes (push_points st acc ps) <> [].
Proof. intros H ->. simpl. destruct (removelast (pa_holes acc)); discriminate. Qed.

Lemma load_section ls : forall ps st acc rest, Forall line_ok ls -> points_of parse_float ls ps ->
  (st = PHole -> pa_holes acc <> []) ->
  load_lines parse_float st acc (map line_text ls ++ rest) = load_lines parse_float st (push_points st acc ps) rest.
Proof.
  induction ls as [|l ls IH]; intros ps st acc rest F P H; simpl in *.
  - subst ps. rewrite push_points_nil; auto.
  - inversion F as [|x y Fl Fls]; subst.
    destruct l as [|lead x sep y trail].
    + simpl. apply IH; auto.
    + destruct ps as [|p ps]; [destruct P|]. destruct P as (P1 & P2 & P3).
      cbn [line_text].
      assert (M : forall m, text_eqb (lead ++ x ++ sep ++ y ++ trail) (marker_text m) = false).
      { intro m. destruct (text_eqb _ (marker_text m)) eqn:E; auto. apply text_eqb_spec in E.
        exfalso. eapply point_line_not_marker; eauto. }
      pose proof (M MHole) as M1. pose proof (M MSteiner) as M2. simpl in M1, M2. rewrite M1, M2.
      rewrite (parse_point_line _ _ _ _ _ p) by auto. cbn [rbind].
      assert (G : load_lines parse_float st (push_points st acc [p]) (map line_text ls ++ rest) =
                  load_lines parse_float st (push_points st acc (p :: ps)) rest).
      { rewrite (IH ps) by (auto; intro; apply push_points_holes; auto). rewrite push_points_app. reflexivity. }
      destruct st; try exact G.
      rewrite push_last_ok by auto. exact G.
Qed.

Lemma load_sections ss : forall hs stp st acc, Forall (fun s => Forall line_ok (snd s)) ss ->
  sections_of parse_float ss hs stp ->
  load_lines parse_float st acc (flat_map (fun s => marker_text (fst s) :: map line_text (snd s)) ss) =
  Done (mkParsed (pa_polygon acc) (pa_holes acc ++ hs) (pa_steiner acc ++ stp)).
Proof.
  induction ss as [|[m ls] ss IH]; intros hs stp st acc F S; inversion S; subst.
  - simpl. rewrite !app_nil_r. destruct acc; reflexivity.
  - inversion F as [|a b Fl Fss]; subst.
    change (flat_map _ _) with (HOLE :: (map line_text ls ++ flat_map (fun s => marker_text (fst s) :: map line_text (snd s)) ss)).
    cbn [load_lines]. replace (text_eqb HOLE HOLE) with true by reflexivity.
    rewrite (load_section ls ps) by (auto; intros _; simpl; destruct (pa_holes acc); discriminate).
    erewrite IH; eauto. simpl. rewrite removelast_last, last_last, <- app_assoc. reflexivity.
  - inversion F as [|a b Fl Fss]; subst.
    change (flat_map _ _) with (STEINER :: (map line_text ls ++ flat_map (fun s => marker_text (fst s) :: map line_text (snd s)) ss)).
    cbn [load_lines]. replace (text_eqb STEINER HOLE) with false by reflexivity.
    replace (text_eqb STEINER STEINER) with true by reflexivity.
    rewrite (load_section ls ps) by (auto; discriminate).
    erewrite IH; eauto. simpl. rewrite <- app_assoc. reflexivity.
Qed.

(** C32.  The builder loaded from a well-formed file is the one built from the
    points it lists. *)
Theorem C32_load_well_formed : forall f t poly holes steiner,
  file_ok f -> joined (file_lines f) t ->
  points_of parse_float (f_polygon f) poly -> sections_of parse_float (f_sections f) holes steiner ->
  load parse_float (FText t) =
    let! b := builder_of unit (unit_source poly) [CHoles unit (map unit_source holes); CSteiners unit (unit_source steiner)]
    in Done (inl b).
Proof.
  intros f t poly holes steiner OK J P S. unfold load. rewrite (lines_joined _ _ (file_no_eol f OK) J).
  unfold file_lines. destruct OK as [O1 O2].
  rewrite (load_section _ poly) by (auto; discriminate).
  rewrite (load_sections _ holes steiner) by auto. simpl.
  unfold build_parsed, builder_of. simpl. unfold apply_call.
  destruct (builder_new unit (unit_source poly)); simpl; auto.
Qed.

(** ** C33: failure modes *)
(** a line that does not start with two numbers *)
Definition bad_line (l : text) : Prop :=
  l <> [] /\ l <> HOLE /\ l <> STEINER /\
  ~ exists w1 w2 rest x y, split_whitespace l = w1 :: w2 :: rest /\ parse_float w1 = Some x /\ parse_float w2 = Some y.

Lemma parse_point_cases l : (l = [] /\ parse_point parse_float l = Done None) \/
  (l <> [] /\ (exists p, parse_point parse_float l = Done (Some p)) /\
     exists w1 w2 rest x y, split_whitespace l = w1 :: w2 :: rest /\ parse_float w1 = Some x /\ parse_float w2 = Some y) \/
  (l <> [] /\ parse_point parse_float l = Panic P_loader_unwrap /\
     ~ exists w1 w2 rest x y, split_whitespace l = w1 :: w2 :: rest /\ parse_float w1 = Some x /\ parse_float w2 = Some y).
Proof.
  destruct l as [|c l]; [auto|]. right. unfold parse_point.
  destruct (split_whitespace (c :: l)) as [|w1 [|w2 r]]; cbn [nth_error unwrap rbind].
  - right. split; [discriminate|]. split; auto. intros (?&?&?&?&?&?&_); discriminate.
  - right. split; [discriminate|]. split; auto. intros (?&?&?&?&?&?&_); discriminate.
  - destruct (parse_float w1) as [x|] eqn:X; destruct (parse_float w2) as [y|] eqn:Y; cbn [unwrap rbind].
    1: left; split; [discriminate|]; split; [eauto|]; exists w1, w2, r, x, y; auto.
    all: right; split; [discriminate|]; split; auto;
      intros (a & b & r' & x' & y' & H & H1 & H2); injection H as <- <- <-; congruence.
Qed.

Lemma load_lines_cases ls : forall st acc, (st = PHole -> pa_holes acc <> []) ->
  (load_lines parse_float st acc ls = Panic P_loader_unwrap /\ Exists bad_line ls) \/
  ((exists pa, load_lines parse_float st acc ls = Done pa) /\ ~ Exists bad_line ls).
Proof.
  induction ls as [|l ls IH]; intros st acc H.
  - right. split; [simpl; eauto|]. intro K; inversion K.
  - cbn [load_lines]. destruct (text_eqb l HOLE) eqn:E1; [|destruct (text_eqb l STEINER) eqn:E2].
    + apply text_eqb_spec in E1. destruct (IH PHole (mkParsed (pa_polygon acc) (pa_holes acc ++ [[]]) (pa_steiner acc))) as [[K1 K2]|[K1 K2]].
      * simpl. intros _. destruct (pa_holes acc); discriminate.
      * left; auto.
      * right; split; auto. intro Q; inversion Q as [? ? B|]; subst; auto. destruct B as (_ & B & _). congruence.
    + apply text_eqb_spec in E2. destruct (IH PSteiner acc) as [[K1 K2]|[K1 K2]]; [discriminate| |].
      * left; auto.
      * right; split; auto. intro Q; inversion Q as [? ? B|]; subst; auto. destruct B as (_ & _ & B & _). congruence.
    + assert (N1 : l <> HOLE) by (intros ->; rewrite (proj2 (text_eqb_spec _ _) eq_refl) in E1; discriminate).
      assert (N2 : l <> STEINER) by (intros ->; rewrite (proj2 (text_eqb_spec _ _) eq_refl) in E2; discriminate).
      destruct (parse_point_cases l) as [[El Ep]|[(El & [p Ep] & W)|(El & Ep & W)]]; rewrite Ep; cbn [rbind].
      * destruct (IH st acc H) as [[K1 K2]|[K1 K2]]; [left; auto|right; split; auto].
        intro Q; inversion Q as [? ? B|]; subst; auto. destruct B as (B & _). congruence.
      * assert (NB : ~ bad_line l) by (intros (_ & _ & _ & B); auto).
        destruct st; [|rewrite push_last_ok by auto; cbn [rbind]|].
        -- destruct (IH PPolygon (mkParsed (pa_polygon acc ++ [p]) (pa_holes acc) (pa_steiner acc))) as [[K1 K2]|[K1 K2]];
             [discriminate|left; auto|right; split; auto]. intro Q; inversion Q; subst; auto.
        -- destruct (IH PHole (mkParsed (pa_polygon acc) (removelast (pa_holes acc) ++ [last (pa_holes acc) [] ++ [p]]) (pa_steiner acc)))
             as [[K1 K2]|[K1 K2]]; [|left; auto|right; split; auto].
           ++ simpl. intros _. destruct (removelast (pa_holes acc)); discriminate.
           ++ intro Q; inversion Q; subst; auto.
        -- destruct (IH PSteiner (mkParsed (pa_polygon acc) (pa_holes acc) (pa_steiner acc ++ [p]))) as [[K1 K2]|[K1 K2]];
             [discriminate|left; auto|right; split; auto]. intro Q; inversion Q; subst; auto.
      * left. split; auto. left. split; auto.
Qed.

Lemma build_parsed_builder pa : build_parsed pa =
  builder_of unit (unit_source (pa_polygon pa)) [CHoles unit (map unit_source (pa_holes pa)); CSteiners unit (unit_source (pa_steiner pa))].
Proof.
  unfold build_parsed, builder_of. simpl. unfold apply_call.
  destruct (builder_new unit (unit_source (pa_polygon pa))); simpl; auto.
Qed.

(** [Err] exactly when the file cannot be opened, and then it is the IO error *)
Theorem C33_err_iff_cannot_open : forall f e, load parse_float f = Done (inr e) <-> f = FCannotOpen /\ e = ErrIo.
Proof.
  intros f e. split.
  - destruct f; simpl; [intro H; injection H as <-; auto|discriminate|].
    destruct (load_lines _ _ _ _); simpl; try discriminate. destruct (build_parsed a); simpl; discriminate.
  - intros [-> ->]. reflexivity.
Qed.
(** a file that cannot be read as UTF-8 panics *)
Theorem C33_unreadable_panics : load parse_float FUnreadable = Panic P_loader_unwrap.
Proof. reflexivity. Qed.
(** a readable file: a malformed line panics; otherwise the outcome is that of
    the builder calls for the points read *)
Theorem C33_readable_outcome : forall t,
  (Exists bad_line (lines t) -> load parse_float (FText t) = Panic P_loader_unwrap) /\
  (~ Exists bad_line (lines t) -> exists poly holes steiner,
     load parse_float (FText t) =
       let! b := builder_of unit (unit_source poly) [CHoles unit (map unit_source holes); CSteiners unit (unit_source steiner)]
       in Done (inl b)).
Proof.
  intro t. destruct (load_lines_cases (lines t) PPolygon (mkParsed [] [] [])) as [[K1 K2]|[[pa K1] K2]]; [discriminate| |].
  - split; [intros _; simpl; rewrite K1; auto|tauto].
  - split; [tauto|]. intros _. exists (pa_polygon pa), (pa_holes pa), (pa_steiner pa). simpl. rewrite K1. simpl.
    rewrite build_parsed_builder. reflexivity.
Qed.
(** so on a file without malformed line, loading panics exactly when two
    cyclically consecutive vertices of a polyline coincide *)
Theorem C33_panics_iff : eq_not_lt -> forall t,
  ~ Exists bad_line (lines t) -> exists poly holes steiner,
    (exists b, load parse_float (FText t) = Done (inl b) /\ pb_points (bd_points b) = poly ++ concat holes ++ steiner /\
       ~ Exists repeats (poly :: holes)) \/
    (load parse_float (FText t) = Panic P_repeat_points /\ Exists repeats (poly :: holes)).
Proof.
  intros L t N. destruct (proj2 (C33_readable_outcome t) N) as (poly & holes & steiner & E).
  exists poly, holes, steiner. rewrite E.
  pose proof (builder_of_panics unit (unit_source poly) [CHoles unit (map unit_source holes); CSteiners unit (unit_source steiner)] L) as H.
  assert (HP : history_polylines unit (unit_source poly) [CHoles unit (map unit_source holes); CSteiners unit (unit_source steiner)] = poly :: holes).
  { unfold history_polylines. simpl. rewrite app_nil_r, map_map. simpl. rewrite map_id. reflexivity. }
  rewrite HP in H.
  destruct H as [[H ->]|[H [b B]]]; [right; auto|left]. rewrite B. exists b. split; auto. split; auto.
  apply builder_of_points in B as (-> & _). unfold history_points. simpl.
  rewrite app_nil_r. f_equal. f_equal. rewrite flat_map_concat_map, map_map. simpl. rewrite map_id. auto.
Qed.
End S.

(** ** The hypotheses are met: a file with CRLF and LF lines, an empty line, a
    hole and a Steiner point, with a toy number parser (one digit). *)
Definition toy_parse (t : text) : option (@num F64) :=
  match t with [c] => if (48 <=? c)%N && (c <=? 57)%N then Some (f64 (Z.of_N c - 48)) else None | _ => None end.
Definition toy_line (a b : N) : line_spec := LPoint [32%N] [a] [9%N; 32%N] [b] [32%N; 120%N].
Definition toy_file : file_spec :=
  mkFile [toy_line 48 48; LEmpty; toy_line 57 49; toy_line 53 56]
         [(MHole, [toy_line 52 50; toy_line 53 51; toy_line 51 52]); (MSteiner, [toy_line 54 53])].
Example toy_file_ok : file_ok toy_file.
Proof.
  assert (B1 : blank 32%N) by (repeat split; discriminate). assert (B2 : blank 9%N) by (repeat split; discriminate).
  assert (L : forall a b, printable a -> printable b -> line_ok (toy_line a b)).
  { intros a b Pa Pb. simpl. repeat split; try discriminate; repeat constructor; auto; try discriminate. }
  split; simpl; repeat (apply Forall_cons || apply Forall_nil); simpl; try exact I; try (apply L; reflexivity);
    repeat (apply Forall_cons || apply Forall_nil); apply L; reflexivity.
Qed.
Definition toy_text : text :=
  fold_right (fun '(i, l) t => l ++ eol_text (if Nat.even i then Unix else Dos) ++ t) []
    (combine (seq 0 (length (file_lines toy_file))) (file_lines toy_file)).
Example toy_joined : joined (file_lines toy_file) toy_text.
Proof. unfold toy_text, file_lines, toy_file. cbn -[eol_text line_text HOLE STEINER]. repeat apply joined_cons. apply joined_nil. Qed.
Example toy_points : points_of toy_parse (f_polygon toy_file) (map pt64 [(0,0);(9,1);(5,8)]%Z) /\
  sections_of toy_parse (f_sections toy_file) [map pt64 [(4,2);(5,3);(3,4)]%Z] (map pt64 [(6,5)]%Z ++ []).
Proof. split; [repeat split|]. apply sec_hole; [repeat split|]. apply sec_steiner; [repeat split|]. apply sec_nil. Qed.
Example toy_loads : match load toy_parse (FText toy_text) with Done (inl b) => length (pb_points (bd_points b)) | _ => 0 end = 7.
Proof. vm_compute. reflexivity. Qed.
Example toy_bad : load toy_parse (FText [120%N; 10%N]) = Panic P_loader_unwrap.
Proof. reflexivity. Qed.

Print Assumptions C32_load_well_formed.
Print Assumptions C33_err_iff_cannot_open.
Print Assumptions C33_readable_outcome.
Print Assumptions C33_panics_iff.
Print Assumptions C33_unreadable_panics.
