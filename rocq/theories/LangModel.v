(** Model of the language stage, TameParse/Compiler/language_stage.cpp: the lexer definitions,
    terminals and grammar of a language block; and of the part of
    TameParse/Language/language_parser.cpp that turns a production as written into EBNF items.
    Positions, file names and the attributes of items are left out; so are the verbose output and
    the reports for unknown enumeration values.  No proofs in this file. *)
From Verif Require Import Base OrdMap TextModel RegexModel LexStageModel TermDictModel GrammarModel.
Local Open Scope Z_scope.

(** ** What a language block holds *)

(** language_unit.h 40-62; [unit_null] and [unit_ignore] are in LexStageModel.v *)
Definition unit_symbols : Z := 1.
Definition unit_keywords : Z := 2.
Definition unit_lexer : Z := 3.

(** lexeme_definition.h 41-75: [lx_add] is |= and [lx_replace] is replace; [lx_text] is the
    definition with its quotes or slashes. *)
Inductive lexeme_kind := KLiteral | KString | KCharacter | KRegex.
Record lexeme := mkLexeme { lx_kind : lexeme_kind; lx_name : name; lx_add : bool; lx_replace : bool; lx_text : list Z }.
(** lexer_block.h 55-73 *)
Record lexer_block := mkBlock { lb_weak : bool; lb_insensitive : bool; lb_sensitive : bool; lb_lexemes : list lexeme }.

(** ebnf_item.h 42-107: the kind, the source language, the identifier, the children *)
Inductive ebnf_type := ENonterminal | ETerminal | EString | ECharacter | EGuard | EAlternative | ERepeatZero | ERepeatOne | EOptional | EParenthesized.
Inductive ebnf := Ebnf (kind : ebnf_type) (source identifier : name) (children : list ebnf).

(** nonterminal_definition.h 42-76, production_definition.h; [X] is the type of the items. *)
Inductive nt_kind := Assignment | Addition | Replace.
Record nt_def (X : Type) := mkNtDef { nd_kind : nt_kind; nd_name : name; nd_productions : list (list X) }.
Arguments mkNtDef {X}. Arguments nd_kind {X}. Arguments nd_name {X}. Arguments nd_productions {X}.

(** language_unit.h 64-78, language_block.h.  For a precedence block the identifiers of its items
    are kept, those of all levels in one list (its other effect is C34). *)
Inductive lang_unit (X : Type) := ULexer (type : Z) (b : lexer_block) | UGrammar (l : list (nt_def X)) | UPrecedence (l : list name).
Arguments ULexer {X}. Arguments UGrammar {X}. Arguments UPrecedence {X}.
Definition language (X : Type) := list (lang_unit X).

(** ** Productions as written *)

(** definition.tp 167-175: <Basic-Terminal> *)
Inductive term_kind := TName | TString | TCharacter.
(** definition.tp 150-165: the syntax of <Simple-Ebnf-Item>.  An <Ebnf-Item> is given as its
    alternatives: the first one and those after each '|'. *)
Inductive simple :=
| SNonterminal (source n : name)
| STerminal (kind : term_kind) (source n : name)
| SGuard (first : list simple) (more : list (list simple))
| SStar (s : simple)
| SPlus (s : simple)
| SQuestion (s : simple)
| SParen (first : list simple) (more : list (list simple)).

(** language_parser.cpp 232-270: the items of one alternative as one item *)
Definition one_item (l : list ebnf) : ebnf :=
  match l with
  | [] => Ebnf EParenthesized [] [] []
  | [x] => x
  | _ => Ebnf EParenthesized [] [] l
  end.
(** language_parser.cpp 272-294 *)
Fixpoint with_or (first : list ebnf) (more : list (list ebnf)) : ebnf :=
  match more with
  | [] => one_item first
  | next :: more => Ebnf EAlternative [] [] [one_item first; with_or next more]
  end.
(** language_parser.cpp 325-350 *)
Definition terminal_type (k : term_kind) : ebnf_type := match k with TName => ETerminal | TString => EString | TCharacter => ECharacter end.
(** language_parser.cpp 297-424 *)
Fixpoint ebnf_of (s : simple) : ebnf :=
  match s with
  | SNonterminal source n => Ebnf ENonterminal source n []
  | STerminal k source n => Ebnf (terminal_type k) source n []
  | SGuard a more => Ebnf EGuard [] [] [with_or (map ebnf_of a) (map (map ebnf_of) more)]
  | SStar s => Ebnf ERepeatZero [] [] [ebnf_of s]
  | SPlus s => Ebnf ERepeatOne [] [] [ebnf_of s]
  | SQuestion s => Ebnf EOptional [] [] [ebnf_of s]
  | SParen a more => with_or (map ebnf_of a) (map (map ebnf_of) more)
  end.
(** language_parser.cpp 427-502 *)
Definition parse_def (d : nt_def simple) : nt_def ebnf := mkNtDef (nd_kind d) (nd_name d) (map (map ebnf_of) (nd_productions d)).
(** language_parser.cpp 505-523, 738-791 *)
Definition parse_unit (u : lang_unit simple) : lang_unit ebnf :=
  match u with
  | ULexer t b => ULexer t b
  | UGrammar l => UGrammar (map parse_def l)
  | UPrecedence l => UPrecedence l
  end.
Definition parse_language (l : language simple) : language ebnf := map parse_unit l.

(** ** The state of the stage *)

(** The messages reported.  Their text, position and file are left out. *)
Inductive message :=
| DuplicateSymbol (n : name)
| MissingForAdding (n : name)
| MissingForReplacing (n : name)
| DifferentType (n : name)
| ImplicitSymbol (n : name)
| DuplicateNonterminal (n : name)
| UndefinedTerminal (n : name)
| UndefinedNonterminal (n : name)
| UnusedSymbol (n : name)
| UnknownUnusedSymbol (symbol : Z).
(** Those that are warnings do not stop the compiler. *)
Definition is_error (m : message) : bool := match m with ImplicitSymbol _ | UnusedSymbol _ => false | _ => true end.

(** language_stage.h 82-110.  [x_defs] and [x_exprs] are m_Lexer; an entry that a lookup creates in
    these maps is left out, as it is empty.  [x_where] holds the keys of m_TerminalDefinition.
    The messages are kept in the order of the reports within this part of the state. *)
Record lex_state := mkLex {
  x_terms : dict;
  x_defs : list (name * list lex_item);
  x_exprs : list (name * list (bool * bool * token));
  x_weak : list Z;
  x_ignored : list Z;
  x_unused : list Z;
  x_type : list (Z * Z);
  x_where : list Z;
  x_messages : list message }.
(** language_stage.h 85-88: the grammar (its identifiers are those of GrammarModel.v, its rules the
    lists of items for each nonterminal) and the guards *)
Record gram_state := mkGram {
  g_ids : ids;
  g_rules : list (Z * list (list item));
  g_guards : list item;
  g_messages : list message }.
Record stage := mkStage { s_lex : lex_state; s_gram : gram_state; s_used_ignored : list Z }.
Definition new_lex : lex_state := mkLex new_dict [] [] [] [] [] [] [] [].
Definition new_gram : gram_state := mkGram no_ids [] [] [].
Definition new_stage : stage := mkStage new_lex new_gram [].
Definition messages (st : stage) : list message := x_messages (s_lex st) ++ g_messages (s_gram st).

Definition with_terms v x := mkLex v (x_defs x) (x_exprs x) (x_weak x) (x_ignored x) (x_unused x) (x_type x) (x_where x) (x_messages x).
Definition with_defs v x := mkLex (x_terms x) v (x_exprs x) (x_weak x) (x_ignored x) (x_unused x) (x_type x) (x_where x) (x_messages x).
Definition with_exprs v x := mkLex (x_terms x) (x_defs x) v (x_weak x) (x_ignored x) (x_unused x) (x_type x) (x_where x) (x_messages x).
Definition with_weak_set v x := mkLex (x_terms x) (x_defs x) (x_exprs x) v (x_ignored x) (x_unused x) (x_type x) (x_where x) (x_messages x).
Definition with_ignored_set v x := mkLex (x_terms x) (x_defs x) (x_exprs x) (x_weak x) v (x_unused x) (x_type x) (x_where x) (x_messages x).
Definition with_unused v x := mkLex (x_terms x) (x_defs x) (x_exprs x) (x_weak x) (x_ignored x) v (x_type x) (x_where x) (x_messages x).
Definition with_type v x := mkLex (x_terms x) (x_defs x) (x_exprs x) (x_weak x) (x_ignored x) (x_unused x) v (x_where x) (x_messages x).
Definition with_where v x := mkLex (x_terms x) (x_defs x) (x_exprs x) (x_weak x) (x_ignored x) (x_unused x) (x_type x) v (x_messages x).
Definition report m x := mkLex (x_terms x) (x_defs x) (x_exprs x) (x_weak x) (x_ignored x) (x_unused x) (x_type x) (x_where x) (x_messages x ++ [m]).

(** lexer_data.cpp 33-35 and 58-60: m_Definitions and m_Expressions *)
Definition entries {V} (n : name) (m : list (name * list V)) : list V := match mfind TermDictModel.name_ltb n m with Some l => l | None => [] end.
Definition add_entry {V} (n : name) (v : V) (m : list (name * list V)) : list (name * list V) := mset TermDictModel.name_ltb n (entries n m ++ [v]) m.

(** ** Lexer blocks *)

(** language_stage.cpp 177-207 and 320-354: the definition of a symbol as the lexer gets it.
    substr(1, size()-2) throws for an empty string.  [None]: that, or undefined behaviour in
    dequote_string. *)
Definition without_slashes (s : list Z) : option (list Z) := match s with [] => None | _ :: t => Some (firstn (length s - 2) t) end.
Definition token_of (x : lexeme) : option token :=
  match lx_kind x with
  | KRegex => option_map Regex (without_slashes (lx_text x))
  | KLiteral => Some (Literal (lx_name x))
  | KString | KCharacter => option_map Literal (dequote_string (lx_text x))
  end.

(** language_stage.cpp 147-208: one item of a lexer-symbols block *)
Definition define_expression (b : lexer_block) (st : lex_state) (x : lexeme) : option lex_state :=
  let n := lx_name x in
  let st :=
    match entries n (x_exprs st) with
    | _ :: _ => if negb (lx_add x) && negb (lx_replace x) then report (DuplicateSymbol n) st else st
    | [] => if lx_add x then report (MissingForAdding n) st
            else if lx_replace x then report (MissingForReplacing n) st else st
    end in
  let st := if lx_replace x then with_exprs (merase TermDictModel.name_ltb n (x_exprs st)) st else st in
  match token_of x with
  | None => None
  | Some t => Some (with_exprs (add_entry n (lb_insensitive b, lb_sensitive b, t) (x_exprs st)) st)
  end.

(** language_stage.cpp 248-367: one item of a block of type [ty] that defines terminals *)
Definition define_lexeme (ty : Z) (b : lexer_block) (st : lex_state) (x : lexeme) : option lex_state :=
  let n := lx_name x in
  let '(st, sym) :=
    if negb (lx_add x) then
      if negb (lx_replace x) then
        let st := if 0 <=? symbol_for_name n (x_terms st) then report (DuplicateSymbol n) st else st in
        let '(d, sym) := add_named n (x_terms st) in (with_terms d st, sym)
      else
        let sym := symbol_for_name n (x_terms st) in
        if sym <? 0 then (report (MissingForReplacing n) st, sym)
        else (with_defs (merase TermDictModel.name_ltb n (x_defs st)) (with_where (serase Z.ltb sym (x_where st)) st), sym)
    else
      let sym := symbol_for_name n (x_terms st) in
      if sym <? 0 then (report (MissingForAdding n) st, sym)
      else if negb ((match mfind Z.ltb sym (x_type st) with Some t => t | None => unit_null end) =? ty) then (report (DifferentType n) st, sym)
      else (st, sym) in
  if sym <? 0 then Some st
  else
    let st := with_type (mset Z.ltb sym ty (x_type st)) st in
    let st := if negb (ty =? unit_ignore) then with_unused (sins Z.ltb sym (x_unused st)) st else st in
    let st := with_where (sins Z.ltb sym (x_where st)) st in
    match token_of x with
    | None => None
    | Some t =>
        let st := with_defs (add_entry n (mkItem t (lb_insensitive b) sym ty (lb_weak b)) (x_defs st)) st in
        let st := if ty =? unit_ignore then with_ignored_set (sins Z.ltb sym (x_ignored st)) st else st in
        Some (if lb_weak b then with_weak_set (sins Z.ltb sym (x_weak st)) st else st)
    end.

(** The loops of the stage: [None] is passed on. *)
Section Loop.
  Context {S X : Type} (step : S -> X -> option S).
  Fixpoint each (l : list X) (st : S) : option S :=
    match l with
    | [] => Some st
    | x :: l => match step st x with None => None | Some st => each l st end
    end.
End Loop.

(** language_stage.cpp 137-211 *)
Definition define_expressions {X} (l : language X) (st : lex_state) : option lex_state :=
  each (fun st u =>
    match u with
    | ULexer ty b => if ty =? unit_symbols then each (define_expression b) (lb_lexemes b) st else Some st
    | _ => Some st
    end) l st.
(** language_stage.cpp 213-372: weak blocks first, then the others; among them keywords, lexer and
    ignore *)
Definition passes : list (bool * Z) := flat_map (fun weak => map (pair weak) [unit_keywords; unit_lexer; unit_ignore]) [true; false].
Definition define_lexemes {X} (l : language X) (st : lex_state) : option lex_state :=
  each (fun st p =>
    each (fun st u =>
      match u with
      | ULexer ty b => if (ty =? snd p) && eqb (lb_weak b) (fst p) then each (define_lexeme ty b) (lb_lexemes b) st else Some st
      | _ => Some st
      end) l st) passes st.

(** ** Symbols that the grammar defines *)

(** language_stage.cpp 594-652: a terminal that is named ([ETerminal]) or given as a string or
    character *)
Definition implicit_symbol (n : name) (t : option token) (m : list message) (st : lex_state) : option lex_state :=
  if 0 <=? symbol_for_name n (x_terms st) then Some st
  else
    let st := fold_left (fun st m => report m st) m st in
    let '(d, sym) := add_named n (x_terms st) in
    let st := with_terms d st in
    match t with
    | None => None
    | Some t =>
        let st := with_defs (add_entry n (mkItem t false sym unit_keywords true) (x_defs st)) st in
        let st := with_unused (sins Z.ltb sym (x_unused st)) st in
        let st := with_type (mset Z.ltb sym unit_keywords (x_type st)) st in
        Some (with_weak_set (sins Z.ltb sym (x_weak st)) st)
    end.
(** language_stage.cpp 569-661 without the count *)
Fixpoint add_ebnf_lexer_items (st : lex_state) (e : ebnf) : option lex_state :=
  match e with
  | Ebnf k source n children =>
      match k with
      | EGuard | EAlternative | ERepeatZero | ERepeatOne | EOptional | EParenthesized =>
          (fix all (l : list ebnf) (st : lex_state) : option lex_state :=
             match l with
             | [] => Some st
             | e :: l => match add_ebnf_lexer_items st e with None => None | Some st => all l st end
             end) children st
      | ETerminal => match source with [] => implicit_symbol n (Some (Regex n)) [ImplicitSymbol n] st | _ => Some st end
      | EString | ECharacter => implicit_symbol n (option_map Literal (dequote_string n)) [] st
      | ENonterminal => Some st
      end
  end.
(** language_stage.cpp 374-394 *)
Definition nonterminals {X} (l : language X) : list (nt_def X) := flat_map (fun u => match u with UGrammar l => l | _ => [] end) l.
Definition define_implicit (l : language ebnf) (st : lex_state) : option lex_state :=
  each (fun st d => each (fun st p => each add_ebnf_lexer_items p st) (nd_productions d) st) (nonterminals l) st.

(** ** The grammar *)

Section Grammar.
  (** terminal_dictionary::symbol_for_name; the dictionary does not change any more. *)
  Context (terminal_id : name -> Z).

  (** language_stage.cpp 680-839.  The state is the identifiers and m_Guards (a map; its keys are
      kept).  The result are the items to be appended to the rule.  [None]: a child that is
      missing. *)
  Fixpoint compile_item (e : ebnf) (c : ids * list item) : option (ids * list item * list item) :=
    let fix children (l : list ebnf) (c : ids * list item) : option (ids * list item * list item) :=
      match l with
      | [] => Some (c, [])
      | e :: l => match compile_item e c with
                  | None => None
                  | Some (c, i) => match children l c with None => None | Some (c, k) => Some (c, i ++ k) end
                  end
      end in
    let made (i : item) (c : ids * list item) := let '(g, _) := identifier_for_item i (fst c) in Some ((g, snd c), [i]) in
    match e with
    | Ebnf k _ n l =>
        match k with
        | ETerminal | EString | ECharacter => Some (c, [ITerm (terminal_id n)])
        | ENonterminal => let '(g, id) := id_for_nonterminal n (fst c) in Some ((g, snd c), [INonterm id])
        | EParenthesized => children l c
        | EOptional => match l with
                       | e :: _ => match compile_item e c with None => None | Some (c, r) => made (IEbnf Optional [r]) c end
                       | [] => None
                       end
        | ERepeatOne => match l with
                        | e :: _ => match compile_item e c with None => None | Some (c, r) => made (IEbnf Repeat [r]) c end
                        | [] => None
                        end
        | ERepeatZero => match l with
                         | e :: _ => match compile_item e c with None => None | Some (c, r) => made (IEbnf RepeatZero [r]) c end
                         | [] => None
                         end
        | EGuard => match l with
                    | e :: _ => match compile_item e c with
                                | None => None
                                | Some ((g, guards), r) => made (IGuard (-1) r) (g, sins item_ltb (IGuard (-1) r) guards)
                                end
                    | [] => None
                    end
        | EAlternative => match l with
                          | e :: f :: _ => match compile_item e c with
                                           | None => None
                                           | Some (c, r) => match compile_item f c with None => None | Some (c, q) => made (IEbnf Alternative [r; q]) c end
                                           end
                          | _ => None
                          end
        end
    end.
  Fixpoint compile_items (l : list ebnf) (c : ids * list item) : option (ids * list item * list item) :=
    match l with
    | [] => Some (c, [])
    | e :: l => match compile_item e c with
                | None => None
                | Some (c, i) => match compile_items l c with None => None | Some (c, k) => Some (c, i ++ k) end
                end
    end.

  (** grammar.cpp 86-101 *)
  Definition rules_of (m : list (Z * list (list item))) (id : Z) : list (list item) := match mfind Z.ltb id m with Some l => l | None => [] end.
  Definition set_rules id l (g : gram_state) := mkGram (g_ids g) (mset Z.ltb id l (g_rules g)) (g_guards g) (g_messages g).
  Definition g_report m (g : gram_state) := mkGram (g_ids g) (g_rules g) (g_guards g) (g_messages g ++ [m]).

  (** language_stage.cpp 427-442: one production *)
  Definition define_production (id : Z) (g : gram_state) (p : list ebnf) : option gram_state :=
    match compile_items p (g_ids g, g_guards g) with
    | None => None
    | Some ((i, guards), r) =>
        let '(i, _) := identifier_for_rule (mkRule (INonterm id) r) i in
        Some (mkGram i (mset Z.ltb id (rules_of (g_rules g) id ++ [r]) (g_rules g)) guards (g_messages g))
    end.
  (** language_stage.cpp 405-443 *)
  Definition define_nonterminal (g : gram_state) (d : nt_def ebnf) : option gram_state :=
    let '(i, id) := id_for_nonterminal (nd_name d) (g_ids g) in
    let g := mkGram i (g_rules g) (g_guards g) (g_messages g) in
    let defined := match rules_of (g_rules g) id with [] => false | _ => true end in
    let g := match nd_kind d with
             | Assignment => if defined then g_report (DuplicateNonterminal (nd_name d)) g else g
             | Replace => if defined then set_rules id [] g else g
             | Addition => g
             end in
    each (define_production id) (nd_productions d) g.
  (** language_stage.cpp 396-444 *)
  Definition define_grammar (l : language ebnf) (g : gram_state) : option gram_state := each define_nonterminal (nonterminals l) g.
End Grammar.

(** ** After the grammar *)

(** language_stage.cpp 65-87: the terminals of an item; a guard is not an EBNF item. *)
Fixpoint item_terminals (i : item) : list Z :=
  match i with
  | ITerm s => [s]
  | IEbnf _ rs => flat_map (flat_map item_terminals) rs
  | _ => []
  end.
Definition process_symbol (st : list Z * list Z) (ignored : list Z) (s : Z) : list Z * list Z :=
  (serase Z.ltb s (fst st), if smem Z.ltb s ignored then sins Z.ltb s (snd st) else snd st).
(** language_stage.cpp 446-455: the sets of unused symbols and of ignored symbols that are used *)
Definition process_rules (g : gram_state) (ignored : list Z) (st : list Z * list Z) : list Z * list Z :=
  fold_left (fun st id =>
    fold_left (fun st r => fold_left (fun st i => fold_left (fun st s => process_symbol st ignored s) (item_terminals i) st) r st)
      (rules_of (g_rules g) id) st)
    (map Z.of_nat (seq 0 (length (item_id (g_ids g))))) st.
(** language_stage.cpp 457-484: the check of the precedence blocks *)
Definition check_precedence {X} (l : language X) (d : dict) (g : gram_state) : gram_state :=
  fold_left (fun g u =>
    match u with
    | UPrecedence names => fold_left (fun g n => if symbol_for_name n d <? 0 then g_report (UndefinedTerminal n) g else g) names g
    | _ => g
    end) l g.
(** language_stage.cpp 486-504 *)
Definition check_nonterminals (g : gram_state) : gram_state :=
  fold_left (fun g id =>
    match item_with_identifier id (g_ids g) with
    | INonterm s => match rules_of (g_rules g) id with
                    | [] => g_report (UndefinedNonterminal (name_for_nonterminal s (g_ids g))) g
                    | _ => g
                    end
    | _ => g
    end) (map Z.of_nat (seq 0 (length (item_id (g_ids g))))) g.

(** language_stage.cpp 128-504: a language block, when [st] is what export_to (866-886)
    left of the language it inherits from.  The check of the guards (506-537) is not part of it. *)
Definition compile_language (st : stage) (l : language ebnf) : option stage :=
  match define_expressions l (s_lex st) with
  | None => None
  | Some x =>
      match define_lexemes l x with
      | None => None
      | Some x =>
          match define_implicit l x with
          | None => None
          | Some x =>
              match define_grammar (fun n => symbol_for_name n (x_terms x)) l (s_gram st) with
              | None => None
              | Some g =>
                  let '(unused, used) := process_rules g (x_ignored x) (x_unused x, s_used_ignored st) in
                  Some (mkStage (with_unused unused x) (check_nonterminals (check_precedence l (x_terms x) g)) used)
              end
          end
      end
  end.
(** The language blocks that inherit from each other, the one without a parent first *)
Definition compile_chain (ls : list (language ebnf)) : option stage := each compile_language ls new_stage.

(** language_stage.cpp 550-566 *)
Definition report_unused_symbols (x : lex_state) : list message :=
  map (fun s => if smem Z.ltb s (x_where x) then UnusedSymbol (match name_for_symbol (S (length (symbol_name (x_terms x)))) s (x_terms x) with Some n => n | None => [] end)
                else UnknownUnusedSymbol s) (x_unused x).

(** ** Inheritance *)

(** language_stage.cpp 90-124: [find] is import_stage::language_with_name, [inherits] the first
    name after the ':'.  A language that is not found is reported, and the rest is compiled without
    it.  [fuel] bounds the recursion. *)
Record lang_block (X : Type) := mkLang { l_inherits : option name; l_units : language X }.
Arguments mkLang {X}. Arguments l_inherits {X}. Arguments l_units {X}.
Inductive outcome := Compiled (st : stage) (missing : list name) | Undefined | OutOfFuel.
Fixpoint compile (find : name -> option (lang_block ebnf)) (fuel : nat) (b : lang_block ebnf) : outcome :=
  match fuel with
  | O => OutOfFuel
  | S fuel =>
      let parent :=
        match l_inherits b with
        | None => Compiled new_stage []
        | Some n => match find n with
                    | None => Compiled new_stage [n]
                    | Some p => compile find fuel p
                    end
        end in
      match parent with
      | Compiled st missing => match compile_language st (l_units b) with Some st => Compiled st missing | None => Undefined end
      | o => o
      end
  end.
(** language_parser.cpp 760-792: a language block as written *)
Definition parse_block (b : lang_block simple) : lang_block ebnf := mkLang (l_inherits b) (parse_language (l_units b)).
