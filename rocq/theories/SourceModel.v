(** Model of Language/language_parser.cpp: the definition file that is made from the syntax tree of a language
    file, and what an object of the class language_parser holds.  The lexer and parser of the definition language
    are generated code (tameparse_language.cpp), here a section variable.  Positions are left out.  The classes of
    the syntax tree are given as inductive types with one constructor for each production of definition.tp: a
    field that the C++ code tests for NULL is there in some constructors only.  No proofs in this file. *)
From Verif Require Import Base TextModel RegexModel LexStageModel TermDictModel LangModel.
Local Open Scope Z_scope.

(** ** What a definition file holds *)

(** ebnf_item_attributes.h 41-69 *)
Inductive conflict := NotSpecified | ConflictShift | ConflictReduce | ConflictWeakReduce.
Record attributes := mkAttr { a_name : name; a_conflict : conflict; a_can_clash : bool }.
(** ebnf_item_attributes.cpp 33-36 *)
Definition no_attributes : attributes := mkAttr [] NotSpecified false.
(** ebnf_item.h 88-107 *)
Inductive item := Item (kind : ebnf_type) (source identifier : name) (a : attributes) (children : list item).
(** precedence_block.h 42-73 *)
Inductive assoc := AssocLeft | AssocRight | NonAssoc.
(** language_unit.h 64-75 *)
Inductive d_unit := DLexer (type : Z) (b : lexer_block) | DGrammar (l : list (nt_def item)) | DPrecedence (l : list (assoc * list item)).
(** test_definition.h 43-68 *)
Inductive test_type := TestMatch | TestNoMatch | TestFromFile.
Record test_def := mkTest { t_language : name; t_nonterminal : name; t_type : test_type; t_identifier : name; t_string : list Z }.
(** toplevel_block.h 44-53, language_block.h 54-60, import_block.h 43, parser_block.h 44-50, test_block.h 49-52 *)
Inductive d_block :=
| DLanguage (n : name) (inherits : list name) (units : list d_unit)
| DImport (f : list Z)
| DParser (n language : name) (start : list name)
| DTest (language : name) (tests : list test_def).
(** definition_file.h 51 *)
Definition definition_file := list d_block.

(** ** Syntax trees *)

(** definition.tp 180-183: <Semantic-Item> *)
Inductive semantic := SemName (n : name) | SemShift | SemReduce | SemWeakReduce.
(** definition.tp 178, and that it may be missing: the first item and those after it *)
Definition specification := option (semantic * list semantic).
(** definition.tp 150-172: <Simple-Ebnf-Item> as in LangModel.v, with what is said in brackets and with [None]
    where no language is named *)
Inductive tree :=
| XNonterminal (source : option name) (n : name) (s : specification)
| XTerminal (kind : term_kind) (source : option name) (n : name) (s : specification)
| XGuard (can_clash : bool) (first : list tree) (more : list (list tree)) (s : specification)
| XStar (t : tree) (s : specification)
| XPlus (t : tree) (s : specification)
| XQuestion (t : tree) (s : specification)
| XParen (first : list tree) (more : list (list tree)) (s : specification).
(** definition.tp 144-148: <Nonterminal-Definition> and <Production> *)
Record nt_tree := mkNtTree { n_kind : nt_kind; n_name : name; n_first : list tree; n_more : list (list tree) }.
(** definition.tp 134-136: <Lexeme-Definition>.  The kind is not [KLiteral]. *)
Inductive lexeme_tree :=
| LDefine (n : name) (add : bool) (kind : lexeme_kind) (text : list Z)
| LReplace (n : name) (kind : lexeme_kind) (text : list Z)
| LReference (n source_language source_name : name).
(** definition.tp 131-132: <Keyword-Definition> *)
Inductive keyword_tree := KwLiteral (n : name) | KwLexeme (l : lexeme_tree).
(** definition.tp 124-129: <Lexer-Symbols-Modifier> and <Lexer-Modifier> *)
Inductive case_modifier := CaseSensitive | CaseInsensitive.
Inductive modifier := Weak | Case (c : case_modifier).
(** definition.tp 191-197: <Precedence-Item>; there are two words for the last kind *)
Inductive assoc_word := WLeft | WRight | WNonAssociative | WNonAssoc.
Inductive equal_items := OneItem (t : tree) | Braces (l : list tree).
(** definition.tp 105-122, 142, 189: <Language-Definition> *)
Inductive unit_tree :=
| TSymbols (m : list case_modifier) (l : list lexeme_tree)
| TLexer (m : list modifier) (l : list lexeme_tree)
| TIgnore (l : list keyword_tree)
| TKeywords (m : list modifier) (l : list keyword_tree)
| TGrammar (l : list nt_tree)
| TPrecedence (l : list (assoc_word * equal_items)).
(** definition.tp 213-218: <Test-Definition> and <Test-Specification>; [text] has its quotes *)
Inductive test_word := WEquals | WNotEquals | WFrom.
Record test_tree := mkTestTree { tt_source : option name; tt_nonterminal : name; tt_word : test_word; tt_specs : list (option name * list Z) }.
(** definition.tp 88-99, 203-211: <TopLevel-Block> *)
Inductive block_tree :=
| BLanguage (n : name) (inherits : option name) (units : list unit_tree)
| BImport (text : list Z)
| BParser (n language : name) (start : list (option name * name))
| BTest (language : name) (tests : list test_tree).
Definition file_tree := list block_tree.

(** ** The translation *)

(** language_parser.cpp 191-210 *)
Definition modify_attribute (a : attributes) (s : semantic) : attributes :=
  match s with
  | SemName n => mkAttr n (a_conflict a) (a_can_clash a)
  | SemShift => mkAttr (a_name a) ConflictShift (a_can_clash a)
  | SemReduce => mkAttr (a_name a) ConflictReduce (a_can_clash a)
  | SemWeakReduce => mkAttr (a_name a) ConflictWeakReduce (a_can_clash a)
  end.
(** language_parser.cpp 213-226, 299-304 *)
Definition attributes_of (s : specification) : attributes :=
  match s with
  | None => no_attributes
  | Some (first, more) => fold_left modify_attribute more (modify_attribute no_attributes first)
  end.
(** language_parser.cpp 311-314, 352-354: an empty string if there is no name *)
Definition source_of (s : option name) : name := match s with Some n => n | None => [] end.
(** language_parser.cpp 238-269 *)
Definition joined (l : list item) : item :=
  match l with
  | [] => Item EParenthesized [] [] no_attributes []
  | [x] => x
  | _ => Item EParenthesized [] [] no_attributes l
  end.
(** language_parser.cpp 233, 271-294 *)
Fixpoint alternatives (a : attributes) (first : list item) (more : list (list item)) : item :=
  match more with
  | [] => joined first
  | next :: more => Item EAlternative [] [] a [joined first; alternatives no_attributes next more]
  end.
(** language_parser.cpp 297-424; 365-367 for guards *)
Fixpoint item_of (t : tree) : item :=
  match t with
  | XNonterminal source n s => Item ENonterminal (source_of source) n (attributes_of s) []
  | XTerminal k source n s => Item (terminal_type k) (source_of source) n (attributes_of s) []
  | XGuard cc f m s =>
      let a := attributes_of s in
      Item EGuard [] [] (if cc then mkAttr (a_name a) (a_conflict a) true else a)
           [alternatives no_attributes (map item_of f) (map (map item_of) m)]
  | XStar t s => Item ERepeatZero [] [] (attributes_of s) [item_of t]
  | XPlus t s => Item ERepeatOne [] [] (attributes_of s) [item_of t]
  | XQuestion t s => Item EOptional [] [] (attributes_of s) [item_of t]
  | XParen f m s => alternatives (attributes_of s) (map item_of f) (map (map item_of) m)
  end.
(** language_parser.cpp 427-502 *)
Definition nonterminal_of (n : nt_tree) : nt_def item :=
  mkNtDef (n_kind n) (n_name n) (map item_of (n_first n) :: map (map item_of) (n_more n)).

(** language_parser.cpp 526-570.  [None]: the lexeme is not added.  The alternative of lines 555-559 is not
    reached for a syntax tree of a text. *)
Definition lexeme_of (l : lexeme_tree) : option lexeme :=
  match l with
  | LDefine n add k text => Some (mkLexeme k n add false text)
  | LReplace n k text => Some (mkLexeme k n false true text)
  | LReference _ _ _ => None
  end.
(** language_parser.cpp 602-620 *)
Definition keyword_of (k : keyword_tree) : option lexeme :=
  match k with
  | KwLexeme l => lexeme_of l
  | KwLiteral n => Some (mkLexeme KLiteral n false false n)
  end.
(** One definition after the other, none at all if one is missing: 601-621, 661-668, 773-787, 850-864 *)
Fixpoint all {A B : Type} (f : A -> option B) (l : list A) : option (list B) :=
  match l with
  | [] => Some []
  | x :: l => match f x with
              | None => None
              | Some y => match all f l with Some r => Some (y :: r) | None => None end
              end
  end.
(** language_parser.cpp 574-597, 630-654: the flags weak, insensitive, sensitive *)
Definition with_modifier (f : bool * bool * bool) (m : modifier) : bool * bool * bool :=
  let '(weak, insensitive, sensitive) := f in
  match m with
  | Weak => (true, insensitive, sensitive)
  | Case CaseInsensitive => (weak, true, sensitive)
  | Case CaseSensitive => (weak, insensitive, true)
  end.
Definition flags (m : list modifier) : bool * bool * bool := fold_left with_modifier m (false, false, false).
(** language_parser.cpp 573-626, 629-671 *)
Definition lexer_unit (type : Z) (m : list modifier) (l : option (list lexeme)) : option d_unit :=
  let '(weak, insensitive, sensitive) := flags m in
  match l with Some l => Some (DLexer type (mkBlock weak insensitive sensitive l)) | None => None end.
(** language_parser.cpp 674-735 *)
Definition assoc_of (w : assoc_word) : assoc := match w with WLeft => AssocLeft | WRight => AssocRight | _ => NonAssoc end.
Definition precedence_of (p : assoc_word * equal_items) : assoc * list item :=
  (assoc_of (fst p), match snd p with OneItem t => [item_of t] | Braces l => map item_of l end).
(** language_parser.cpp 738-757 *)
Definition unit_of (u : unit_tree) : option d_unit :=
  match u with
  | TSymbols m l => lexer_unit unit_symbols (map Case m) (all lexeme_of l)
  | TLexer m l => lexer_unit unit_lexer m (all lexeme_of l)
  | TIgnore l => lexer_unit unit_ignore [] (all keyword_of l)
  | TKeywords m l => lexer_unit unit_keywords m (all keyword_of l)
  | TGrammar l => Some (DGrammar (map nonterminal_of l))
  | TPrecedence l => Some (DPrecedence (map precedence_of l))
  end.

(** process.cpp 34-68, from the position after the first character on; [s] is what is left of the string *)
Definition quoted_char (c : Z) : Z :=
  if c =? 97 then 7 else if c =? 101 then 27 else if c =? 110 then 10 else if c =? 114 then 13 else if c =? 102 then 12 else if c =? 116 then 9 else c.
Fixpoint dequote (s : list Z) : list Z :=
  match s with
  | [] => []
  | [_] => []
  | c :: ((d :: s) as r) => if c =? 92 then quoted_char d :: dequote s else c :: dequote r
  end.
Definition dequote_string (s : list Z) : list Z := match s with [] => [] | _ :: s => dequote s end.

(** language_parser.cpp 97-110 *)
Definition test_type_of (w : test_word) : test_type := match w with WEquals => TestMatch | WNotEquals => TestNoMatch | WFrom => TestFromFile end.
(** language_parser.cpp 84-144 *)
Definition tests_of (t : test_tree) : option (list test_def) :=
  match tt_specs t with
  | [] => None
  | _ => Some (map (fun s => mkTest (source_of (tt_source t)) (tt_nonterminal t) (test_type_of (tt_word t)) (source_of (fst s)) (dequote_string (snd s))) (tt_specs t))
  end.
(** language_parser.cpp 147-188, 760-842 *)
Definition block_of (b : block_tree) : option d_block :=
  match b with
  | BLanguage n inherits units =>
      match all unit_of units with
      | Some l => Some (DLanguage n (match inherits with Some i => [i] | None => [] end) l)
      | None => None
      end
  | BImport s => Some (DImport (dequote_string s))
  | BParser n language start => Some (DParser n language (map snd start))
  | BTest language tests => match all tests_of tests with Some l => Some (DTest language (concat l)) | None => None end
  end.
(** language_parser.cpp 845-872 *)
Definition definition_of (f : file_tree) : option definition_file := all block_of f.

(** ** The object *)

(** language_parser.cpp 884-899: the two errors; the position is that of the lexeme the parser stopped at *)
Inductive syntax_error := SyntaxError (at_ : Z) | SyntaxEndOfFile.
(** language_parser.h: m_FileDefinition and m_RecentErrors *)
Record language_parser := mkParser { p_definition : option definition_file; p_errors : list syntax_error }.
(** language_parser.cpp 43-46 *)
Definition new_parser : language_parser := mkParser None [].

Section Object.
  (** A text that is read (a string, a UTF-8 string or a stream), and what the generated parser makes of it: the
      syntax tree, or where it stopped ([None] is the end of the text). *)
  Context (text : Type) (parsed : text -> file_tree + option Z).
  (** language_parser.cpp 906-938, 944-985, 991-1029 *)
  Definition parse (p : language_parser) (x : text) : language_parser * bool :=
    match parsed x with
    | inl t => (mkParser (definition_of t) [], true)
    | inr (Some a) => (mkParser None [SyntaxError a], false)
    | inr None => (mkParser None [SyntaxEndOfFile], false)
    end.
  Definition parse_all (p : language_parser) (l : list text) : language_parser := fold_left (fun p x => fst (parse p x)) l p.
End Object.
