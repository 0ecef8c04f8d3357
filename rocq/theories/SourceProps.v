(** C80: what a language file says is what its definition file holds. *)
From Coq Require Import String.
From Verif Require Import Base TextModel RegexModel LexStageModel TermDictModel LangModel NamesModel SourceModel SourceSpec SourceProofs.
Local Open Scope Z_scope.

(** The definition file of a plain language file, written down again, is its text: every block, unit, symbol,
    production, item, name in brackets, level of precedence, start symbol and test, in the same order.
    [value] may be any function that gives what strings in quotes stand for.  Missing: files with references to
    symbols of other languages (C80_reference_refuted), start symbols of other languages (C80_start_refuted) and
    brackets after parentheses (C80_brackets_refuted); and files that are not plain because something in them could
    be said in a shorter way or in a different order. *)
Theorem C80_written_partial : forall value f, (forall s v, stands_for s v -> value s = v) ->
  plain_file f -> (forall s, In s (file_strings f) -> exists v, stands_for s v) ->
  exists d, definition_of f = Some d /\ written d = file_text value f.
Proof.
  intros value f V P S. destruct (file_right f P) as (d & E & W). exists d. split; [exact E|]. rewrite W.
  apply file_text_ext. intros s I. destruct (S s I) as [v H]. rewrite (V s v H). apply stands_dequote. exact H.
Qed.
Print Assumptions C80_written_partial.

(** Nothing of a plain file gets lost: two of them with the same definition file have the same text. *)
Theorem C80_faithful_partial : forall value f g, (forall s v, stands_for s v -> value s = v) ->
  plain_file f -> plain_file g -> (forall s, In s (file_strings f ++ file_strings g) -> exists v, stands_for s v) ->
  definition_of f = definition_of g -> file_text value f = file_text value g.
Proof.
  intros value f g V P Q S E.
  destruct (C80_written_partial value f V P (fun s I => S s (in_or_app _ _ _ (or_introl I)))) as (d & D & W).
  destruct (C80_written_partial value g V Q (fun s I => S s (in_or_app _ _ _ (or_intror I)))) as (d' & D' & W').
  rewrite <- W, <- W'. congruence.
Qed.
Print Assumptions C80_faithful_partial.

(** Of any file, plain or not: the languages and grammar blocks of the definition file are those of the text, with
    the productions that C66 takes as written. *)
Theorem C80_productions : forall f d, definition_of f = Some d -> Forall2 same_grammar f d.
Proof. exact file_same. Qed.
Print Assumptions C80_productions.

(** Of any lexer block: it is weak, case insensitive, case sensitive exactly if one of its modifiers says so, in
    whatever order and however often they are written. *)
Theorem C80_modifiers : forall u v m n, unit_of u = Some v -> unit_modifiers u = Some (m, n) ->
  exists type b, v = DLexer type b /\ length (lb_lexemes b) = n /\
    (lb_weak b = true <-> In Weak m) /\ (lb_insensitive b = true <-> In (Case CaseInsensitive) m) /\ (lb_sensitive b = true <-> In (Case CaseSensitive) m).
Proof. exact unit_modified. Qed.
Print Assumptions C80_modifiers.

(** Of any brackets: the last name and the last action for conflicts count. *)
Theorem C80_brackets : forall s, last_name s (a_name (attributes_of s)) /\ last_action s (a_conflict (attributes_of s)) /\ a_can_clash (attributes_of s) = false.
Proof. intro s. destruct (attributes_last s). split; [assumption|]. split; [assumption|apply attributes_clash]. Qed.
Print Assumptions C80_brackets.

(** A string in quotes is read as what it stands for; and all stand for something whose last character before the
    quotation mark is not a backslash. *)
Theorem C80_strings : forall s v, stands_for s v -> dequote_string s = v.
Proof. exact stands_dequote. Qed.
Print Assumptions C80_strings.
Theorem C80_strings_stand : forall body, (forall b, body <> b ++ [92]) -> exists v, stands_for (34 :: body ++ [34]) v.
Proof. intros body N. destruct (unquoted_exists (length body) body (le_n _) N) as [v U]. exists v, body. auto. Qed.
Print Assumptions C80_strings_stand.

Section Object.
  Context (text : Type) (parsed : text -> file_tree + option Z).
  (** What a parser object holds depends on the last text only; it says whether that text has the right syntax, and
      has an error exactly if not.  There is a definition file exactly if the syntax is right and no symbol is
      defined by reference. *)
  Theorem C80_parse : forall l x p ok, (forall x t, parsed x = inl t -> tests_have_strings t) ->
    parse text parsed (parse_all text parsed new_parser l) x = (p, ok) ->
    (ok = true <-> exists f, parsed x = inl f) /\ (p_errors p = [] <-> ok = true) /\ (length (p_errors p) <= 1)%nat /\
    (forall d, p_definition p = Some d <-> exists f, parsed x = inl f /\ definition_of f = Some d) /\
    (p_definition p = None <-> ok = false \/ exists f, parsed x = inl f /\ refers f).
  Proof.
    intros l x p ok H E. unfold parse in E. specialize (H x). destruct (parsed x) as [f|[a|]]; injection E as <- <-; cbn.
    - specialize (H f eq_refl). split; [split; [intros _; exists f; reflexivity|reflexivity]|]. split; [split; reflexivity|]. split; [lia|]. split.
      + intro d. split; [intro D; exists f; auto|]. intros (f' & F & D). injection F as <-. exact D.
      + rewrite (file_none f H). split; [intro R; right; exists f; auto|]. intros [X|(f' & F & R)]; [discriminate|]. injection F as <-. exact R.
    - split; [split; [discriminate|intros [f F]; discriminate]|]. split; [split; discriminate|]. split; [lia|]. split.
      + intro d. split; [discriminate|intros (f & F & _); discriminate].
      + split; auto.
    - split; [split; [discriminate|intros [f F]; discriminate]|]. split; [split; discriminate|]. split; [lia|]. split.
      + intro d. split; [discriminate|intros (f & F & _); discriminate].
      + split; auto.
  Qed.
  Theorem C80_last : forall l x, parse_all text parsed new_parser (l ++ [x]) = fst (parse text parsed new_parser x).
  Proof. intros. unfold parse_all. rewrite fold_left_app. cbn. unfold parse. destruct (parsed x) as [f|[a|]]; reflexivity. Qed.
End Object.
Print Assumptions C80_parse.
Print Assumptions C80_last.

(** ** What is not so *)

Definition lang (us : list unit_tree) : file_tree := [BLanguage (codes "L") None us].
Definition term (n : string) (s : specification) : tree := XTerminal TName None (codes n) s.
(** A symbol that is defined by reference to one of another language: the text is parsed and there is no error, but
    there is no definition file (a language that another file imports is then missing without a word). *)
Theorem C80_reference_refuted : exists f, forall (text : Type) (parsed : text -> file_tree + option Z) x,
  parsed x = inl f -> parse text parsed new_parser x = (mkParser None [], true).
Proof. exists (lang [TLexer [] [LReference (codes "a") (codes "M") (codes "b")]]). intros text parsed x E. unfold parse. rewrite E. reflexivity. Qed.
Print Assumptions C80_reference_refuted.
(** The language in front of a start symbol is lost. *)
Theorem C80_start_refuted : exists f g, definition_of f = definition_of g /\ definition_of f <> None /\ forall value, file_text value f <> file_text value g.
Proof.
  exists [BParser (codes "P") (codes "L") [(None, codes "<X>")]], [BParser (codes "P") (codes "L") [(Some (codes "M"), codes "<X>")]].
  split; [reflexivity|]. split; [discriminate|]. intros value H. discriminate H.
Qed.
Print Assumptions C80_start_refuted.
(** Brackets after parentheses around a sequence, or around one item, are lost: here the name of the sequence. *)
Definition sequence (s : specification) : file_tree :=
  lang [TGrammar [mkNtTree Assignment (codes "<X>") [XParen [term "a" None; term "b" None] [] s] []]].
Theorem C80_brackets_refuted : exists f g, definition_of f = definition_of g /\ definition_of f <> None /\ forall value, file_text value f <> file_text value g.
Proof.
  exists (sequence None), (sequence (Some (SemName (codes "pair"), []))).
  split; [reflexivity|]. split; [discriminate|]. intros value H. discriminate H.
Qed.
Print Assumptions C80_brackets_refuted.
(** Brackets after parentheses around an alternative are kept. *)
Example C80_alternative_kept :
  written_item Full (item_of (XParen [term "a" None] [[term "b" None]] (Some (SemName (codes "one"), [])))) =
  [t "("; Term TName (codes "a"); t "|"; Term TName (codes "b"); t ")"; t "["; T (codes "one"); t "]"].
Proof. vm_compute. reflexivity. Qed.

(** ** An example *)

Definition quoted (s : string) : list Z := 34 :: codes s ++ [34].
Definition example_file : file_tree :=
  [BImport (quoted "base.tp");
   BLanguage (codes "L") (Some (codes "Base"))
     [TLexer [Weak; Case CaseInsensitive] [LDefine (codes "id") false KRegex (codes "/[a-z]+/"); LReplace (codes "num") KString (quoted "0")];
      TKeywords [] [KwLiteral (codes "if"); KwLexeme (LDefine (codes "while") true KString (quoted "while"))];
      TPrecedence [(WLeft, OneItem (term "plus" None)); (WNonAssoc, Braces [term "less" None; term "more" None])];
      TGrammar [mkNtTree Assignment (codes "<X>")
        [XGuard true [term "id" None] [] None; XStar (XParen [XNonterminal (Some (codes "Base")) (codes "<Y>") None; term "id" (Some (SemName (codes "key"), [SemShift]))] [[]] None) (Some (SemName (codes "pairs"), []))]
        [[]]]];
   BParser (codes "P") (codes "L") [(None, codes "<X>"); (None, codes "<Y>")];
   BTest (codes "L") [mkTestTree None (codes "<X>") WEquals [(None, quoted "a"); (Some (codes "two"), quoted "b\n")]]].
Example C80_written_example : plain_file example_file /\ (forall s, In s (file_strings example_file) -> exists v, stands_for s v).
Proof.
  split.
  - repeat constructor; cbn; try discriminate; try (intro H; discriminate H); try (eexists true, false, true; reflexivity); try (eexists false, false, false; reflexivity).
  - cbn. intros s [<-|[<-|[<-|[]]]].
    all: match goal with |- exists v, stands_for ?s v => refine (C80_strings_stand (removelast (tl s)) _) end; cbn; intros b E; apply (f_equal (@rev Z)) in E; rewrite rev_app_distr in E; discriminate E.
Qed.
Example C80_definition_example : option_map (fun d => length (written d)) (definition_of example_file) = Some 89%nat.
Proof. vm_compute. reflexivity. Qed.
Example C80_dequote_example : stands_for (34 :: codes "a\n\\b" ++ [34]) (codes "a" ++ [10; 92] ++ codes "b").
Proof.
  exists (codes "a\n\\b"). split; [reflexivity|]. vm_compute.
  apply UPlain; [discriminate|]. apply UEscape; [right; right; left; reflexivity|]. apply UEscape; [repeat right; split; [|reflexivity]; cbn; intuition discriminate|].
  apply UPlain; [discriminate|]. apply UNil.
Qed.
