(** What a language file and a definition file say, each as a sequence of tokens: [file_text] is the text a syntax
    tree was made from, [written] is a definition file written down in the definition language.  Only the types
    of the model are used. *)
From Coq Require Import String.
From Verif Require Import Base TextModel RegexModel LexStageModel TermDictModel LangModel NamesModel SourceModel.
Local Open Scope Z_scope.

(** A word or symbol of the text; a nonterminal; a terminal in a production, and the right side of the definition
    of a symbol, with their kinds (name, string, character, regular expression) and with their quotes; a string in
    quotes, shown as the characters it stands for. *)
Inductive token := T (text : list Z) | Nt (text : list Z) | Term (kind : term_kind) (text : list Z) | Right (kind : lexeme_kind) (text : list Z) | Stands (value : list Z).
Definition t (s : string) : token := T (codes s).

(** ** The string that a string in quotes stands for *)

(** [escape c d]: a backslash with [c] stands for [d]. *)
Definition escape (c d : Z) : Prop :=
  (c, d) = (97, 7) \/ (c, d) = (101, 27) \/ (c, d) = (110, 10) \/ (c, d) = (114, 13) \/ (c, d) = (102, 12) \/ (c, d) = (116, 9) \/
  (~ In c [97; 101; 110; 114; 102; 116] /\ d = c).
Inductive unquoted : list Z -> list Z -> Prop :=
| UNil : unquoted [] []
| UPlain : forall c s v, c <> 92 -> unquoted s v -> unquoted (c :: s) (c :: v)
| UEscape : forall c d s v, escape c d -> unquoted s v -> unquoted (92 :: c :: s) (d :: v).
(** 34 is the quotation mark *)
Definition stands_for (s v : list Z) : Prop := exists body, s = 34 :: body ++ [34] /\ unquoted body v.

(** ** Syntax trees as text *)

Definition semantic_text (s : semantic) : list token :=
  match s with
  | SemName n => [T n]
  | SemShift => [t "conflict"; t "="; t "shift"]
  | SemReduce => [t "conflict"; t "="; t "reduce"]
  | SemWeakReduce => [t "conflict"; t "="; t "weak"; t "reduce"]
  end.
Definition spec_text (s : specification) : list token :=
  match s with
  | None => []
  | Some (first, more) => [t "["] ++ semantic_text first ++ flat_map (fun x => t "," :: semantic_text x) more ++ [t "]"]
  end.
Definition source_text (s : option name) : list token := match s with Some n => [T n; t "."] | None => [] end.
(** The alternatives of an <Ebnf-Item>, given the texts of the items *)
Definition alternatives_text (first : list (list token)) (more : list (list (list token))) : list token :=
  concat first ++ flat_map (fun a => t "|" :: concat a) more.
Fixpoint tree_text (x : tree) : list token :=
  match x with
  | XNonterminal source n s => source_text source ++ [Nt n] ++ spec_text s
  | XTerminal k source n s => source_text source ++ [Term k n] ++ spec_text s
  | XGuard cc f m s =>
      [t "[=>"] ++ (if cc then [t "["; t "can-clash"; t "]"] else []) ++
      alternatives_text (map tree_text f) (map (map tree_text) m) ++ [t "]"] ++ spec_text s
  | XStar x s => tree_text x ++ [t "*"] ++ spec_text s
  | XPlus x s => tree_text x ++ [t "+"] ++ spec_text s
  | XQuestion x s => tree_text x ++ [t "?"] ++ spec_text s
  | XParen f m s => [t "("] ++ alternatives_text (map tree_text f) (map (map tree_text) m) ++ [t ")"] ++ spec_text s
  end.
Definition productions_text (first : list tree) (more : list (list tree)) : list token :=
  flat_map tree_text first ++ flat_map (fun p => t "|" :: flat_map tree_text p) more.
Definition nt_kind_text (k : nt_kind) (n : name) : list token :=
  match k with Assignment => [Nt n; t "="] | Addition => [Nt n; t "|="] | Replace => [t "replace"; Nt n; t "="] end.
Definition nt_text (n : nt_tree) : list token := nt_kind_text (n_kind n) (n_name n) ++ productions_text (n_first n) (n_more n).

Definition lexeme_text (l : lexeme_tree) : list token :=
  match l with
  | LDefine n add k text => [T n; t (if add then "|=" else "="); Right k text]
  | LReplace n k text => [t "replace"; T n; t "="; Right k text]
  | LReference n language source => [T n; t "="; T language; t "."; T source]
  end.
Definition keyword_text (k : keyword_tree) : list token := match k with KwLiteral n => [T n] | KwLexeme l => lexeme_text l end.
Definition modifier_text (m : modifier) : list token :=
  match m with
  | Weak => [t "weak"]
  | Case CaseSensitive => [t "case"; t "sensitive"]
  | Case CaseInsensitive => [t "case"; t "insensitive"]
  end.
Definition braces (l : list token) : list token := t "{" :: l ++ [t "}"].
Definition assoc_text (w : assoc_word) : token :=
  match w with WLeft => t "left" | WRight => t "right" | WNonAssociative => t "non-associative" | WNonAssoc => t "non-assoc" end.
Definition precedence_text (p : assoc_word * equal_items) : list token :=
  assoc_text (fst p) :: match snd p with OneItem x => tree_text x | Braces l => braces (flat_map tree_text l) end.
Definition unit_text (u : unit_tree) : list token :=
  match u with
  | TSymbols m l => flat_map modifier_text (map Case m) ++ t "lexer-symbols" :: braces (flat_map lexeme_text l)
  | TLexer m l => flat_map modifier_text m ++ t "lexer" :: braces (flat_map lexeme_text l)
  | TIgnore l => t "ignore" :: braces (flat_map keyword_text l)
  | TKeywords m l => flat_map modifier_text m ++ t "keywords" :: braces (flat_map keyword_text l)
  | TGrammar l => t "grammar" :: braces (flat_map nt_text l)
  | TPrecedence l => t "precedence" :: braces (flat_map precedence_text l)
  end.
Definition test_word_text (w : test_word) : token := match w with WEquals => t "=" | WNotEquals => t "!=" | WFrom => t "from" end.
(** [value] gives what a string in quotes stands for. *)
Section Value.
  Context (value : list Z -> list Z).
  (** A test with several strings is short for several tests: the nonterminal is repeated for each. *)
  Definition test_spec_text (s : option name * list Z) : list token :=
    match fst s with Some n => [T n; t "("; Stands (value (snd s)); t ")"] | None => [Stands (value (snd s))] end.
  Definition test_text (x : test_tree) : list token :=
    flat_map (fun s => source_text (tt_source x) ++ [Nt (tt_nonterminal x); test_word_text (tt_word x)] ++ test_spec_text s) (tt_specs x).
  Definition start_text (s : option name * name) : list token := source_text (fst s) ++ [Nt (snd s)].
  Definition block_text (b : block_tree) : list token :=
    match b with
    | BLanguage n inherits units =>
        [t "language"; T n] ++ match inherits with Some i => [t ":"; T i] | None => [] end ++ braces (flat_map unit_text units)
    | BImport s => [t "import"; Stands (value s)]
    | BParser n language start => [t "parser"; T n; t ":"; T language] ++ braces (flat_map start_text start)
    | BTest language tests => [t "test"; T language] ++ braces (flat_map test_text tests)
    end.
  Definition file_text (f : file_tree) : list token := flat_map block_text f.
End Value.

(** ** Definition files as text *)

Definition written_source (n : name) : list token := match n with [] => [] | _ => [T n; t "."] end.
Definition written_conflict (c : conflict) : list token :=
  match c with
  | NotSpecified => []
  | ConflictShift => [t "conflict"; t "="; t "shift"]
  | ConflictReduce => [t "conflict"; t "="; t "reduce"]
  | ConflictWeakReduce => [t "conflict"; t "="; t "weak"; t "reduce"]
  end.
Definition written_attributes (a : attributes) : list token :=
  match a_name a, a_conflict a with
  | [], NotSpecified => []
  | [], c => [t "["] ++ written_conflict c ++ [t "]"]
  | n, NotSpecified => [t "["; T n; t "]"]
  | n, c => [t "["; T n; t ","] ++ written_conflict c ++ [t "]"]
  end.
Definition plain_attributes (a : attributes) : bool :=
  match a_name a, a_conflict a with [], NotSpecified => negb (a_can_clash a) | _, _ => false end.
(** [Full]: as an item.  [Sequence]: as one alternative of several, [Choice]: as the alternatives up to the end of
    the parentheses or of the guard; there parentheses that change nothing are not written. *)
Inductive place := Full | Sequence | Choice.
Definition in_parentheses (l : list token) (a : attributes) : list token := [t "("] ++ l ++ [t ")"] ++ written_attributes a.
Fixpoint written_item (p : place) (i : item) : list token :=
  match i with
  | Item k source n a l =>
      match k with
      | ENonterminal => written_source source ++ [Nt n] ++ written_attributes a
      | ETerminal => written_source source ++ [Term TName n] ++ written_attributes a
      | EString => written_source source ++ [Term TString n] ++ written_attributes a
      | ECharacter => written_source source ++ [Term TCharacter n] ++ written_attributes a
      | EGuard => [t "[=>"] ++ (if a_can_clash a then [t "["; t "can-clash"; t "]"] else []) ++ flat_map (written_item Choice) l ++ [t "]"] ++ written_attributes a
      | ERepeatZero => flat_map (written_item Full) l ++ [t "*"] ++ written_attributes a
      | ERepeatOne => flat_map (written_item Full) l ++ [t "+"] ++ written_attributes a
      | EOptional => flat_map (written_item Full) l ++ [t "?"] ++ written_attributes a
      | EParenthesized =>
          let body := flat_map (written_item Full) l in
          match p with Full => in_parentheses body a | _ => body end
      | EAlternative =>
          let body := match l with [x; y] => written_item Sequence x ++ [t "|"] ++ written_item Choice y | _ => [] end in
          match p with Choice => if plain_attributes a then body else in_parentheses body a | _ => in_parentheses body a end
      end
  end.
Definition written_productions (l : list (list item)) : list token :=
  match l with
  | [] => []
  | first :: more => flat_map (written_item Full) first ++ flat_map (fun p => t "|" :: flat_map (written_item Full) p) more
  end.
Definition written_nt (n : nt_def item) : list token := nt_kind_text (nd_kind n) (nd_name n) ++ written_productions (nd_productions n).
Definition written_lexeme (l : lexeme) : list token :=
  match lx_kind l with
  | KLiteral => [T (lx_name l)]
  | k => (if lx_replace l then [t "replace"] else []) ++ [T (lx_name l); t (if lx_add l then "|=" else "="); Right k (lx_text l)]
  end.
Definition written_block (word : string) (b : lexer_block) : list token :=
  (if lb_weak b then [t "weak"] else []) ++ (if lb_sensitive b then [t "case"; t "sensitive"] else []) ++
  (if lb_insensitive b then [t "case"; t "insensitive"] else []) ++ t word :: braces (flat_map written_lexeme (lb_lexemes b)).
Definition written_assoc (a : assoc) : token := match a with AssocLeft => t "left" | AssocRight => t "right" | NonAssoc => t "non-assoc" end.
Definition written_precedence (p : assoc * list item) : list token :=
  written_assoc (fst p) :: match snd p with [x] => written_item Full x | l => braces (flat_map (written_item Full) l) end.
(** The types of lexer blocks of language_unit.h *)
Definition unit_word (type : Z) : string :=
  if type =? unit_symbols then "lexer-symbols" else if type =? unit_keywords then "keywords" else if type =? unit_lexer then "lexer" else "ignore".
Definition written_unit (u : d_unit) : list token :=
  match u with
  | DLexer type b => written_block (unit_word type) b
  | DGrammar l => t "grammar" :: braces (flat_map written_nt l)
  | DPrecedence l => t "precedence" :: braces (flat_map written_precedence l)
  end.
Definition written_test (x : test_def) : list token :=
  written_source (t_language x) ++ [Nt (t_nonterminal x); match t_type x with TestMatch => t "=" | TestNoMatch => t "!=" | TestFromFile => t "from" end] ++
  match t_identifier x with [] => [Stands (t_string x)] | n => [T n; t "("; Stands (t_string x); t ")"] end.
Definition written_top (b : d_block) : list token :=
  match b with
  | DLanguage n inherits units => [t "language"; T n] ++ flat_map (fun i => [t ":"; T i]) inherits ++ braces (flat_map written_unit units)
  | DImport f => [t "import"; Stands f]
  | DParser n language start => [t "parser"; T n; t ":"; T language] ++ braces (map Nt start)
  | DTest language tests => [t "test"; T language] ++ braces (flat_map written_test tests)
  end.
Definition written (f : definition_file) : list token := flat_map written_top f.

(** ** Language files with nothing in them that can be said in a shorter way or in a different order *)

(** What no text can have: an empty word, brackets around nothing. *)
Definition word (n : name) : Prop := n <> [].
Definition source_ok (s : option name) : Prop := match s with Some n => word n | None => True end.
(** In brackets at most one name and then at most one action for conflicts *)
Definition plain_spec (s : specification) : Prop :=
  match s with
  | None => True
  | Some (SemName n, []) => word n
  | Some (SemName n, [SemName _]) => False
  | Some (SemName n, [_]) => word n
  | Some (_, []) => True
  | _ => False
  end.
(** Parentheses around one alternative of several: with several alternatives inside they are needed, except at the
    end and if nothing is said of them in brackets. *)
Definition alone_ok (last : bool) (l : list tree) : Prop :=
  match l with
  | [XParen _ [] _] => False
  | [XParen _ _ None] => last = false
  | _ => True
  end.
Fixpoint choice_ok (first : list tree) (more : list (list tree)) : Prop :=
  match more with
  | [] => alone_ok true first
  | next :: more => alone_ok false first /\ choice_ok next more
  end.
(** Parentheses around a sequence: not around one item, and with nothing said of them in brackets *)
Definition parentheses_ok (first : list tree) (more : list (list tree)) (s : specification) : Prop :=
  match more with
  | [] => length first <> 1%nat /\ s = None
  | _ => choice_ok first more
  end.
Fixpoint plain (x : tree) : Prop :=
  let fix plains (l : list tree) : Prop := match l with [] => True | x :: l => plain x /\ plains l end in
  let fix plainss (l : list (list tree)) : Prop := match l with [] => True | x :: l => plains x /\ plainss l end in
  match x with
  | XNonterminal source n s | XTerminal _ source n s => source_ok source /\ plain_spec s
  | XGuard _ f m s => plains f /\ plainss m /\ choice_ok f m /\ plain_spec s
  | XStar x s | XPlus x s | XQuestion x s => plain x /\ plain_spec s
  | XParen f m s => plains f /\ plainss m /\ parentheses_ok f m s /\ plain_spec s
  end.
Definition plain_nt (n : nt_tree) : Prop := Forall plain (n_first n) /\ Forall (Forall plain) (n_more n).
(** The kinds of definitions that have a text of their own, and none by reference *)
Definition plain_lexeme (l : lexeme_tree) : Prop :=
  match l with LDefine _ _ k _ | LReplace _ k _ => k <> KLiteral | LReference _ _ _ => False end.
Definition plain_keyword (k : keyword_tree) : Prop := match k with KwLiteral _ => True | KwLexeme l => plain_lexeme l end.
(** Each modifier at most once: weak, then sensitive, then insensitive *)
Definition plain_modifiers (m : list modifier) : Prop :=
  exists a b c : bool, m = (if a then [Weak] else []) ++ (if b then [Case CaseSensitive] else []) ++ (if c then [Case CaseInsensitive] else []).
(** The shorter of the two words for no associativity, and no braces around one item *)
Definition plain_precedence (p : assoc_word * equal_items) : Prop :=
  fst p <> WNonAssociative /\ match snd p with OneItem x => plain x | Braces l => Forall plain l /\ length l <> 1%nat end.
Definition plain_unit (u : unit_tree) : Prop :=
  match u with
  | TSymbols m l => plain_modifiers (map Case m) /\ Forall plain_lexeme l
  | TLexer m l => plain_modifiers m /\ Forall plain_lexeme l
  | TIgnore l => Forall plain_keyword l
  | TKeywords m l => plain_modifiers m /\ Forall plain_keyword l
  | TGrammar l => Forall plain_nt l
  | TPrecedence l => Forall plain_precedence l
  end.
Definition plain_test (x : test_tree) : Prop :=
  source_ok (tt_source x) /\ tt_specs x <> [] /\ Forall (fun s => source_ok (fst s)) (tt_specs x).
(** No language in front of a start symbol *)
Definition plain_block (b : block_tree) : Prop :=
  match b with
  | BLanguage _ _ units => Forall plain_unit units
  | BImport _ => True
  | BParser _ _ start => Forall (fun s => fst s = None) start
  | BTest _ tests => Forall plain_test tests
  end.
Definition plain_file (f : file_tree) : Prop := Forall plain_block f.

(** ** What is in a file whether it is plain or not *)

Definition lexeme_refers (l : lexeme_tree) : Prop := match l with LReference _ _ _ => True | _ => False end.
Definition keyword_refers (k : keyword_tree) : Prop := match k with KwLexeme l => lexeme_refers l | _ => False end.
Definition unit_refers (u : unit_tree) : Prop :=
  match u with
  | TSymbols _ l | TLexer _ l => Exists lexeme_refers l
  | TIgnore l | TKeywords _ l => Exists keyword_refers l
  | _ => False
  end.
(** A symbol of the file is defined by reference to one of another language. *)
Definition refers (f : file_tree) : Prop :=
  Exists (fun b => match b with BLanguage _ _ units => Exists unit_refers units | _ => False end) f.
(** Every test has a string (this is so for all texts that can be parsed). *)
Definition tests_have_strings (f : file_tree) : Prop :=
  Forall (fun b => match b with BTest _ tests => Forall (fun x => tt_specs x <> []) tests | _ => True end) f.
(** The last name and the last action that brackets give *)
Definition spec_list (s : specification) : list semantic := match s with Some (x, l) => x :: l | None => [] end.
Definition last_name (s : specification) (n : name) : Prop :=
  (n = [] /\ forall m, ~ In (SemName m) (spec_list s)) \/
  exists before after, spec_list s = before ++ SemName n :: after /\ forall m, ~ In (SemName m) after.
Definition action_of (s : semantic) : option conflict :=
  match s with SemName _ => None | SemShift => Some ConflictShift | SemReduce => Some ConflictReduce | SemWeakReduce => Some ConflictWeakReduce end.
Definition last_action (s : specification) (c : conflict) : Prop :=
  (c = NotSpecified /\ forall x, In x (spec_list s) -> action_of x = None) \/
  exists before x after, spec_list s = before ++ x :: after /\ action_of x = Some c /\ forall y, In y after -> action_of y = None.

(** ** The strings in quotes of a file *)

Definition block_strings (b : block_tree) : list (list Z) :=
  match b with BImport s => [s] | BTest _ tests => flat_map (fun x => map snd (tt_specs x)) tests | _ => [] end.
Definition file_strings (f : file_tree) : list (list Z) := flat_map block_strings f.

(** ** Productions without brackets, as LangModel.v has them *)

Fixpoint bare (x : tree) : simple :=
  match x with
  | XNonterminal source n _ => SNonterminal (match source with Some l => l | None => [] end) n
  | XTerminal k source n _ => STerminal k (match source with Some l => l | None => [] end) n
  | XGuard _ f m _ => SGuard (map bare f) (map (map bare) m)
  | XStar x _ => SStar (bare x)
  | XPlus x _ => SPlus (bare x)
  | XQuestion x _ => SQuestion (bare x)
  | XParen f m _ => SParen (map bare f) (map (map bare) m)
  end.
Definition bare_nt (n : nt_tree) : nt_def simple := mkNtDef (n_kind n) (n_name n) (map (map bare) (n_first n :: n_more n)).
Fixpoint bare_item (i : item) : ebnf := match i with Item k source n _ l => Ebnf k source n (map bare_item l) end.
Definition bare_def (n : nt_def item) : nt_def ebnf := mkNtDef (nd_kind n) (nd_name n) (map (map bare_item) (nd_productions n)).
(** The grammar blocks of a definition file are those of the text, with the same productions. *)
Definition same_productions (u : unit_tree) (v : d_unit) : Prop :=
  match u, v with
  | TGrammar l, DGrammar l' => map bare_def l' = map parse_def (map bare_nt l)
  | TGrammar _, _ | _, DGrammar _ => False
  | _, _ => True
  end.
Definition same_grammar (b : block_tree) (d : d_block) : Prop :=
  match b, d with
  | BLanguage n i us, DLanguage n' i' vs => n' = n /\ i' = match i with Some x => [x] | None => [] end /\ Forall2 same_productions us vs
  | BLanguage _ _ _, _ | _, DLanguage _ _ _ => False
  | _, _ => True
  end.
(** The modifiers and the number of the definitions of a lexer block *)
Definition unit_modifiers (u : unit_tree) : option (list modifier * nat) :=
  match u with
  | TSymbols m l => Some (map Case m, length l)
  | TLexer m l => Some (m, length l)
  | TIgnore l => Some ([], length l)
  | TKeywords m l => Some (m, length l)
  | _ => None
  end.
