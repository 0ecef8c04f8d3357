(** Model of Language/bootstrap.cpp: the grammar of the bootstrap language, in which the definition language
    itself is defined, and the functions that make a definition file from a syntax tree of this grammar.
    Positions are left out, but the lexemes they are taken from are read.  Definition files are those of
    SourceModel.v.  No proofs in this file. *)
From Verif Require Import Base TermDictModel LexStageModel LangModel SourceModel.
Local Open Scope Z_scope.

(** ** Terminals and nonterminals *)

(** bootstrap.cpp 118-154: the symbols in the order in which they are added to the dictionary; those that are
    ignored (newline, whitespace, comment) are in no production *)
Definition t_language := 0. Definition t_grammar := 1. Definition t_lexersymbols := 2. Definition t_lexer := 3.
Definition t_weak := 4. Definition t_ignore := 5. Definition t_keywords := 6. Definition t_parser := 7.
Definition t_equals := 8. Definition t_question := 9. Definition t_plus := 10. Definition t_star := 11.
Definition t_colon := 12. Definition t_openparen := 13. Definition t_closeparen := 14. Definition t_opencurly := 15.
Definition t_closecurly := 16. Definition t_dot := 17. Definition t_pipe := 18. Definition t_openguard := 19.
Definition t_opensquare := 20. Definition t_closesquare := 21. Definition t_identifier := 22. Definition t_nonterminal := 23.
Definition t_regex := 24. Definition t_string := 25. Definition t_character := 26.
(** bootstrap.cpp 206-253: the identifiers of the nonterminals, in the order in which they are made.  They are
    also the identifiers of the items in the syntax tree (grammar.cpp 114-123). *)
Definition id_parser_language := 0. Definition id_toplevel_block := 1. Definition id_language_block := 2. Definition id_language_inherits := 3.
Definition id_language_definition := 4. Definition id_lexer_symbols_definition := 5. Definition id_lexer_definition := 6. Definition id_ignore_definition := 7.
Definition id_keywords_definition := 8. Definition id_keyword_definition := 9. Definition id_lexeme_definition := 10. Definition id_grammar_definition := 11.
Definition id_nonterminal_definition := 12. Definition id_production := 13. Definition id_ebnf_item := 14. Definition id_simple_ebnf_item := 15.
Definition id_guard := 16. Definition id_nonterminal := 17. Definition id_terminal := 18. Definition id_basic_terminal := 19.
Definition id_parser_block := 20. Definition id_parser_startsymbol := 21. Definition id_item_name := 22.

(** ** The grammar *)

Inductive sym := Tok (k : Z) | Nonterm (n : Z) | Opt (r : list sym) | Star (r : list sym) | Plus (r : list sym) | Guarded (r : list sym).
(** bootstrap.cpp 255-353 *)
Definition productions : list (Z * list sym) :=
  let weak := Opt [Tok t_weak] in
  let lexemes := Star [Nonterm id_lexeme_definition] in
  let keywords := Star [Nonterm id_keyword_definition] in
  let simple := Star [Nonterm id_simple_ebnf_item] in
  let item_name := Opt [Nonterm id_item_name] in
  [ (id_parser_language, [Star [Nonterm id_toplevel_block]]);
    (id_toplevel_block, [Nonterm id_language_block]);
    (id_toplevel_block, [Nonterm id_parser_block]);
    (id_language_block, [Tok t_language; Tok t_identifier; Opt [Nonterm id_language_inherits]; Tok t_opencurly; Star [Nonterm id_language_definition]; Tok t_closecurly]);
    (id_language_inherits, [Tok t_colon; Tok t_identifier]);
    (id_language_definition, [Nonterm id_lexer_symbols_definition]);
    (id_language_definition, [Nonterm id_lexer_definition]);
    (id_language_definition, [Nonterm id_ignore_definition]);
    (id_language_definition, [Nonterm id_keywords_definition]);
    (id_language_definition, [Nonterm id_grammar_definition]);
    (id_lexer_symbols_definition, [Tok t_lexersymbols; Tok t_opencurly; lexemes; Tok t_closecurly]);
    (id_lexer_definition, [weak; Tok t_lexer; Tok t_opencurly; lexemes; Tok t_closecurly]);
    (id_ignore_definition, [Tok t_ignore; Tok t_opencurly; keywords; Tok t_closecurly]);
    (id_keywords_definition, [weak; Tok t_keywords; Tok t_opencurly; keywords; Tok t_closecurly]);
    (id_keyword_definition, [Tok t_identifier]);
    (id_keyword_definition, [Tok t_identifier; Tok t_equals; Tok t_string]);
    (id_keyword_definition, [Tok t_identifier; Tok t_equals; Tok t_character]);
    (id_keyword_definition, [Tok t_identifier; Tok t_equals; Tok t_regex]);
    (id_lexeme_definition, [Tok t_identifier; Tok t_equals; Tok t_regex]);
    (id_lexeme_definition, [Tok t_identifier; Tok t_equals; Tok t_identifier; Tok t_dot; Tok t_identifier]);
    (id_grammar_definition, [Tok t_grammar; Tok t_opencurly; Star [Nonterm id_nonterminal_definition]; Tok t_closecurly]);
    (id_nonterminal_definition, [Guarded [Tok t_nonterminal; Tok t_equals]; Tok t_nonterminal; Tok t_equals; Nonterm id_production; Star [Tok t_pipe; Nonterm id_production]]);
    (id_item_name, [Tok t_opensquare; Tok t_identifier; Tok t_closesquare]);
    (id_production, [simple]);
    (id_ebnf_item, [simple]);
    (id_ebnf_item, [simple; Tok t_pipe; Nonterm id_ebnf_item]);
    (id_simple_ebnf_item, [Nonterm id_nonterminal; item_name]);
    (id_simple_ebnf_item, [Nonterm id_terminal; item_name]);
    (id_simple_ebnf_item, [Nonterm id_simple_ebnf_item; Tok t_star; item_name]);
    (id_simple_ebnf_item, [Nonterm id_simple_ebnf_item; Tok t_plus; item_name]);
    (id_simple_ebnf_item, [Nonterm id_simple_ebnf_item; Tok t_question; item_name]);
    (id_simple_ebnf_item, [Tok t_openparen; Nonterm id_ebnf_item; Tok t_closeparen]);
    (id_simple_ebnf_item, [Nonterm id_guard]);
    (id_nonterminal, [Tok t_nonterminal]);
    (id_guard, [Tok t_openguard; Nonterm id_ebnf_item; Tok t_closesquare]);
    (id_terminal, [Nonterm id_basic_terminal]);
    (id_basic_terminal, [Tok t_identifier]);
    (id_basic_terminal, [Tok t_string]);
    (id_basic_terminal, [Tok t_character]);
    (id_parser_block, [Tok t_parser; Tok t_identifier; Tok t_colon; Tok t_identifier; Tok t_opencurly; Plus [Nonterm id_parser_startsymbol]; Tok t_closecurly]);
    (id_parser_startsymbol, [Tok t_nonterminal]) ].

(** ** Syntax trees *)

(** util::astnode (astnode.h 43-106): the identifier of the item, -1 for a lexeme; the symbol and the text of
    the lexeme; the children *)
Inductive node := Node (id : Z) (lexeme : option (Z * name)) (children : list node).
Definition id_of (n : node) : Z := match n with Node i _ _ => i end.
Definition kids (n : node) : list node := match n with Node _ _ l => l end.
(** Outcomes: a child that is not there or the lexeme of a node without one has been used (undefined
    behaviour); NULL or false has been returned; a value has been returned *)
Inductive res (A : Type) := Bad | Null | Got (a : A).
Arguments Bad {A}. Arguments Null {A}. Arguments Got {A}.
Definition bind {A B} (r : res A) (f : A -> res B) : res B := match r with Bad => Bad | Null => Null | Got a => f a end.
Notation "x <- r ; f" := (bind r (fun x => f)) (at level 60, r at next level, right associativity).
Definition at_ (n : node) (i : nat) : res node := match nth_error (kids n) i with Some c => Got c | None => Bad end.
(** lexeme()->..., for a node that has to have one *)
Definition lexeme_of (n : node) : res (Z * name) := match n with Node _ (Some l) _ => Got l | _ => Bad end.
Definition content_of (n : node) : res name := l <- lexeme_of n; Got (snd l).

(** bootstrap.cpp 956-965, 1020-1023: the name in brackets after an item, empty if there is none *)
Definition name_of (o : option node) : res name :=
  match o with
  | Some (Node _ _ [c]) => i <- at_ c 1; content_of i
  | _ => Got []
  end.
(** ebnf_item_attributes.cpp: attributes(name) *)
Definition named (n : name) : attributes := mkAttr n NotSpecified false.

(** bootstrap.cpp 1012-1048: [nm] is the name given to the function, [c2] may give another *)
Definition closure (closed : item) (nm : name) (c1 c2 : node) : res item :=
  nm <- match c2 with Node _ _ [_] => name_of (Some c2) | _ => Got nm end;
  l <- lexeme_of c1;
  let k := fst l in
  if k =? t_star then Got (Item ERepeatZero [] [] (named nm) [closed])
  else if k =? t_plus then Got (Item ERepeatOne [] [] (named nm) [closed])
  else if k =? t_question then Got (Item EOptional [] [] (named nm) [closed])
  else Null.
(** bootstrap.cpp 922-950 and 952-1112: get_ebnf_list for the children of an item (892-920 is the same for a
    production) and get_ebnf_item *)
Fixpoint get_ebnf_list (n : node) : res (list item) :=
  match n with
  | Node _ _ [] => Got []
  | Node _ _ [c0; c1] => l <- get_ebnf_list c0; i <- get_ebnf_item c1 None; Got (l ++ [i])
  | _ => Null
  end
with get_ebnf_item (n : node) (optional_name : option node) : res item :=
  match n with
  | Node id _ children =>
      nm <- name_of optional_name;
      if id =? id_ebnf_item then
        match children with
        | [] => Bad
        | c0 :: more =>
            l <- get_ebnf_list c0;
            let left := Item EParenthesized [] [] (named nm) l in
            match more with
            | [_; c2] => alternative <- get_ebnf_item c2 None; Got (Item EAlternative [] [] (named nm) [left; alternative])
            | _ => Got left
            end
        end
      else if id =? id_simple_ebnf_item then
        match children with
        | [c0] => get_ebnf_item c0 None
        | [c0; c1] => get_ebnf_item c0 (Some c1)
        | [c0; c1; c2] =>
            match c0 with
            | Node _ (Some (k, _)) _ =>
                if k =? t_openparen then get_ebnf_item c1 None
                else closed <- get_ebnf_item c0 None; closure closed nm c1 c2
            | Node _ None _ => closed <- get_ebnf_item c0 None; closure closed nm c1 c2
            end
        | _ => Null
        end
      else if id =? id_nonterminal then
        match children with [] => Bad | c0 :: _ => x <- content_of c0; Got (Item ENonterminal [] x (named nm) []) end
      else if id =? id_terminal then
        match children with [] => Bad | c0 :: _ => get_ebnf_item c0 optional_name end
      else if id =? id_basic_terminal then
        match children with
        | [] => Bad
        | c0 :: _ =>
            l <- lexeme_of c0;
            let (k, x) := l in
            if k =? t_identifier then Got (Item ETerminal [] x (named nm) [])
            else if k =? t_string then Got (Item EString [] x (named nm) [])
            else if k =? t_character then Got (Item ECharacter [] x (named nm) [])
            else Null
        end
      else if id =? id_guard then
        match children with
        | _ :: c1 :: _ => content <- get_ebnf_item c1 None; Got (Item EGuard [] [] (named nm) [content])
        | _ => Bad
        end
      else Null
  end.

(** bootstrap.cpp 876-890 *)
Definition get_production_definition (n : node) : res (list item) :=
  if negb (id_of n =? id_production) then Null else c <- at_ n 0; get_ebnf_list c.
(** bootstrap.cpp 850-874 *)
Fixpoint get_production_list (n : node) : res (list (list item)) :=
  match n with
  | Node _ _ [] => Got []
  | Node _ _ [c0; _; c2] => l <- get_production_list c0; p <- get_production_definition c2; Got (l ++ [p])
  | _ => Null
  end.
(** bootstrap.cpp 820-847: the second child of a list *)
Definition get_nonterminal (n : node) : res (nt_def item) :=
  i <- at_ n 1; first <- at_ n 3; more <- at_ n 4; x <- content_of i;
  p <- get_production_definition first; l <- get_production_list more; Got (mkNtDef Assignment x (p :: l)).
(** bootstrap.cpp 805-848 *)
Fixpoint get_grammar_block (n : node) : res (list (nt_def item)) :=
  match n with
  | Node _ _ [] => Got []
  | Node _ _ [c0; c1] => l <- get_grammar_block c0; d <- get_nonterminal c1; Got (l ++ [d])
  | _ => Null
  end.

(** bootstrap.cpp 706-802: the data item of a list *)
Definition get_lexeme (n : node) : res lexeme :=
  if id_of n =? id_lexeme_definition then
    i <- at_ n 0;
    match kids n with
    | [_; _; r] => x <- content_of i; y <- content_of r; Got (mkLexeme KRegex x false false y)
    | _ => Null
    end
  else if id_of n =? id_keyword_definition then
    i <- at_ n 0;
    match kids n with
    | [_] => x <- content_of i; Got (mkLexeme KLiteral x false false x)
    | [_; _; d] =>
        l <- lexeme_of d;
        let (k, y) := l in
        kind <- (if k =? t_string then Got KString else if k =? t_character then Got KCharacter else if k =? t_regex then Got KRegex else Null);
        x <- content_of i; Got (mkLexeme kind x false false y)
    | _ => Null
    end
  else match n with
  | Node _ (Some (k, x)) _ => if k =? t_identifier then Got (mkLexeme KLiteral x false false x) else Null
  | _ => Null
  end.
(** bootstrap.cpp 679-803 *)
Fixpoint get_lexer_block (n : node) : res (list lexeme) :=
  match n with
  | Node _ _ [] => Got []
  | Node _ _ [c0] => x <- get_lexeme c0; Got [x]
  | Node _ _ [c0; c1] => l <- get_lexer_block c0; x <- get_lexeme c1; Got (l ++ [x])
  | _ => Null
  end.
(** bootstrap.cpp 606-677.  [block i j k w]: the word of the block is child i, the lexemes child j, the closing
    bracket child k; weak if [w] and the first child is not empty *)
Definition get_block (child : node) (type : Z) (i j k : nat) (w : bool) : res d_unit :=
  word <- at_ child i; _ <- lexeme_of word; close <- at_ child k; _ <- lexeme_of close;
  weak <- (if w then c <- at_ child 0; Got (match kids c with [] => false | _ => true end) else Got false);
  list <- at_ child j; l <- get_lexer_block list;
  Got (DLexer type (mkBlock weak false false l)).
Definition get_language_defn (n : node) : res d_unit :=
  if negb (id_of n =? id_language_definition) then Null else
  match kids n with
  | [child] =>
      if id_of child =? id_lexer_symbols_definition then get_block child unit_symbols 0 2 3 false
      else if id_of child =? id_lexer_definition then get_block child unit_lexer 1 3 4 true
      else if id_of child =? id_ignore_definition then get_block child unit_ignore 0 2 3 false
      else if id_of child =? id_keywords_definition then get_block child unit_keywords 1 3 4 true
      else if id_of child =? id_grammar_definition then
        word <- at_ child 0; _ <- lexeme_of word; close <- at_ child 3; _ <- lexeme_of close;
        list <- at_ child 2; l <- get_grammar_block list; Got (DGrammar l)
      else Null
  | _ => Null
  end.
(** bootstrap.cpp 574-604 *)
Fixpoint get_language_defn_list (n : node) : res (list d_unit) :=
  match n with
  | Node _ _ [] => Got []
  | Node _ _ [c0; c1] => l <- get_language_defn_list c0; u <- get_language_defn c1; Got (l ++ [u])
  | _ => Null
  end.
(** bootstrap.cpp 536-572 *)
Definition get_language (n : node) : res d_block :=
  if negb (id_of n =? id_language_block) then Null else
  word <- at_ n 0; identifier <- at_ n 1; inherits <- at_ n 2; list <- at_ n 4; close <- at_ n 5;
  match lexeme_of word, lexeme_of identifier, lexeme_of close with
  | Got _, Got x, Got _ =>
      match kids inherits with
      | [] => l <- get_language_defn_list list; Got (DLanguage (snd x) [] l)
      | _ => Null
      end
  | _, _, _ => Null
  end.
(** bootstrap.cpp 522-530: the loop over the start symbols *)
Definition start_symbol (n : node) : res name := c <- at_ n 0; content_of c.
Fixpoint start_symbols (n : node) : res (list name) :=
  match n with
  | Node _ _ [c0; c1] => x <- start_symbol c1; l <- start_symbols c0; Got (x :: l)
  | Node _ _ (c0 :: _) => x <- start_symbol c0; Got [x]
  | Node _ _ [] => Bad
  end.
(** bootstrap.cpp 510-534 *)
Definition get_parser_block (n : node) : res d_block :=
  if negb (id_of n =? id_parser_block) then Null else
  match kids n with
  | [word; identifier; _; language; _; list; close] =>
      l <- start_symbols list; x <- content_of identifier; y <- content_of language; _ <- lexeme_of word; _ <- lexeme_of close;
      Got (DParser x y l)
  | _ => Null
  end.
(** bootstrap.cpp 474-508 *)
Definition get_toplevel (n : node) : res d_block :=
  if negb (id_of n =? id_toplevel_block) then Null else
  match kids n with
  | [child] =>
      if id_of child =? id_language_block then get_language child
      else if id_of child =? id_parser_block then get_parser_block child
      else Null
  | _ => Null
  end.
(** bootstrap.cpp 442-472 *)
Fixpoint get_toplevel_list (n : node) : res definition_file :=
  match n with
  | Node _ _ [] => Got []
  | Node _ _ [c0; c1] => l <- get_toplevel_list c0; b <- get_toplevel c1; Got (l ++ [b])
  | _ => Null
  end.
(** bootstrap.cpp 423-440, for a tree that is not NULL *)
Definition get_definition (n : node) : res definition_file :=
  if negb (id_of n =? id_parser_language) then Null else c <- at_ n 0; get_toplevel_list c.
