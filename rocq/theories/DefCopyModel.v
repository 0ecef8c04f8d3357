(** Copying, assigning and destroying the objects that hold a definition file
    (TameParse/Language).

    Simplifications.  Objects are trees of values in which every object
    carries the address it lies at.  Addresses are counted: [new] hands out
    the next one.  [delete] writes the address to a list.  An enumeration or a
    flag whose value may never have been set is an [option], with [None] for a
    value which was not set.  Enumerations are numbers.  An assignment gets
    [None] as its source if the source is the object itself. *)

From Coq Require Import List ZArith Arith Bool.
Import ListNotations.
Local Open Scope Z_scope.

(** TameParse/Dfa/position.h 35-57: a place in a text. *)
Record pos := mkPos { p_offset : Z; p_line : Z; p_column : Z }.
Definition pos0 : pos := mkPos 0 0 0.

(** TameParse/Dfa/position.h 92-97: operator==. *)
Definition pos_eqb (a b : pos) : bool :=
  if negb (p_line a =? p_line b) then false
  else if negb (p_column a =? p_column b) then false
  else p_offset a =? p_offset b.

(** TameParse/Dfa/position.h 103-111: operator<. *)
Definition pos_ltb (a b : pos) : bool :=
  if p_line a <? p_line b then true
  else if p_line b <? p_line a then false
  else if p_column a <? p_column b then true
  else if p_column b <? p_column a then false
  else p_offset a <? p_offset b.

(** TameParse/Language/block.h 43-48: where a block starts and ends. *)
Record span := mkSpan { s_start : pos; s_end : pos }.

(** TameParse/Language/block.cpp 33-36: the block of the default constructor. *)
Definition span0 : span := mkSpan pos0 pos0.

(** The memory: the next address of [new], and the addresses given to [delete]
    so far. *)
Record heap := mkHeap { next : nat; freed : list nat }.

(** [new]: one address. *)
Definition take (h : heap) : nat * heap := (next h, mkHeap (S (next h)) (freed h)).

(** [delete] for the objects of a list. *)
Definition free (l : list nat) (h : heap) : heap := mkHeap (next h) (freed h ++ l).

(** The loop [push_back(new X( **toCopy))], which is in every operator=. *)
Fixpoint copy_all {A} (copy : nat -> A -> heap -> A * heap) (l : list A) (h : heap) : list A * heap :=
  match l with
  | [] => ([], h)
  | x :: r =>
      let '(a, h1) := take h in
      let '(x', h2) := copy a x h1 in
      let '(r', h3) := copy_all copy r h2 in
      (x' :: r', h3)
  end.

(** The same for a pointer which may be NULL. *)
Definition copy_some {A} (copy : nat -> A -> heap -> A * heap) (o : option A) (h : heap) : option A * heap :=
  match o with
  | None => (None, h)
  | Some x =>
      let '(a, h1) := take h in
      let '(x', h2) := copy a x h1 in
      (Some x', h2)
  end.

(** The loop [delete *toDelete], and [if (p) delete p]. *)
Definition delete_all {A} (delete : A -> list nat) (l : list A) : list nat := flat_map delete l.
Definition delete_some {A} (delete : A -> list nat) (o : option A) : list nat :=
  match o with None => [] | Some x => delete x end.

(** TameParse/Language/ebnf_item_attributes.h 58-69. *)
Record attributes := mkAttr { a_name : list Z; a_conflict : Z; a_clash : bool }.

(** TameParse/Language/ebnf_item_attributes.cpp 33-37: the default constructor. *)
Definition no_attributes : attributes := mkAttr [] 0 false.

(** TameParse/Language/ebnf_item.h 88-107. *)
Inductive item := Item (at_ : nat) (type : option Z) (source name : list Z) (attr : attributes) (where_ : span) (children : list item).

Definition i_at (x : item) : nat := let '(Item a _ _ _ _ _ _) := x in a.
Definition i_type (x : item) : option Z := let '(Item _ t _ _ _ _ _) := x in t.
Definition i_span (x : item) : span := let '(Item _ _ _ _ _ w _) := x in w.

(** TameParse/Language/ebnf_item.cpp 55-61: the destructor, and [delete] with
    it. *)
Fixpoint delete_item (x : item) : list nat :=
  let '(Item a _ _ _ _ _ cs) := x in delete_all delete_item cs ++ [a].
Definition destroy_item (x : item) : list nat :=
  let '(Item _ _ _ _ _ _ cs) := x in delete_all delete_item cs.

(** TameParse/Language/ebnf_item.cpp 50-52 (copy constructor) together with
    68-87 (operator= behind the test for the object itself), for a copy at
    address [here]: the constructor leaves the type unset, and the assignment
    does not mention it. *)
Fixpoint copy_item (here : nat) (from : item) (h : heap) {struct from} : item * heap :=
  let '(Item _ _ source name attr w cs) := from in
  let '(cs', h') :=
    (fix go (l : list item) (h : heap) : list item * heap :=
       match l with
       | [] => ([], h)
       | x :: r =>
           let '(a, h1) := take h in
           let '(x', h2) := copy_item a x h1 in
           let '(r', h3) := go r h2 in
           (x' :: r', h3)
       end) cs h in
  (Item here None source name attr w cs', h').

(** TameParse/Language/ebnf_item.cpp 64-87: operator=. *)
Definition assign_item (this : item) (from : option item) (h : heap) : item * heap :=
  match from with
  | None => (this, h)
  | Some (Item _ _ source name attr w cs) =>
      let h0 := free (destroy_item this) h in
      let '(cs', h') := copy_all copy_item cs h0 in
      (Item (i_at this) (i_type this) source name attr w cs', h')
  end.

(** TameParse/Language/production_definition.h 50. *)
Record production := mkProduction { pr_at : nat; pr_span : span; pr_items : list item }.

(** TameParse/Language/production_definition.cpp 43-49. *)
Definition destroy_production (x : production) : list nat := delete_all delete_item (pr_items x).
Definition delete_production (x : production) : list nat := destroy_production x ++ [pr_at x].

(** TameParse/Language/production_definition.cpp 52-71: operator=. *)
Definition assign_production (this : production) (from : option production) (h : heap) : production * heap :=
  match from with
  | None => (this, h)
  | Some f =>
      let h0 := free (destroy_production this) h in
      let '(is, h') := copy_all copy_item (pr_items f) h0 in
      (mkProduction (pr_at this) (pr_span f) is, h')
  end.

(** TameParse/Language/production_definition.cpp 38-40: copy constructor. *)
Definition copy_production (here : nat) (from : production) (h : heap) : production * heap :=
  assign_production (mkProduction here span0 []) (Some from) h.

(** TameParse/Language/nonterminal_definition.h 71-77. *)
Record nonterminal := mkNonterminal { n_at : nat; n_type : option Z; n_name : list Z; n_span : span; n_productions : list production }.

(** TameParse/Language/nonterminal_definition.cpp 45-51. *)
Definition destroy_nonterminal (x : nonterminal) : list nat := delete_all delete_production (n_productions x).
Definition delete_nonterminal (x : nonterminal) : list nat := destroy_nonterminal x ++ [n_at x].

(** TameParse/Language/nonterminal_definition.cpp 54-74: operator=, which does
    not mention the type. *)
Definition assign_nonterminal (this : nonterminal) (from : option nonterminal) (h : heap) : nonterminal * heap :=
  match from with
  | None => (this, h)
  | Some f =>
      let h0 := free (destroy_nonterminal this) h in
      let '(ps, h') := copy_all copy_production (n_productions f) h0 in
      (mkNonterminal (n_at this) (n_type this) (n_name f) (n_span f) ps, h')
  end.

(** TameParse/Language/nonterminal_definition.cpp 40-42. *)
Definition copy_nonterminal (here : nat) (from : nonterminal) (h : heap) : nonterminal * heap :=
  assign_nonterminal (mkNonterminal here None [] span0 []) (Some from) h.

(** TameParse/Language/grammar_block.h 50. *)
Record grammar := mkGrammar { g_at : nat; g_span : span; g_nonterminals : list nonterminal }.

(** TameParse/Language/grammar_block.cpp 43-49. *)
Definition destroy_grammar (x : grammar) : list nat := delete_all delete_nonterminal (g_nonterminals x).
Definition delete_grammar (x : grammar) : list nat := destroy_grammar x ++ [g_at x].

(** TameParse/Language/grammar_block.cpp 52-65: operator=.  There is no test
    for the object itself: its list was cleared when the loop of the copies
    goes over it.  The position is not mentioned. *)
Definition assign_grammar (this : grammar) (from : option grammar) (h : heap) : grammar * heap :=
  let h0 := free (destroy_grammar this) h in
  let source := match from with None => [] | Some f => g_nonterminals f end in
  let '(ns, h') := copy_all copy_nonterminal source h0 in
  (mkGrammar (g_at this) (g_span this) ns, h').

(** TameParse/Language/grammar_block.cpp 38-40. *)
Definition copy_grammar (here : nat) (from : grammar) (h : heap) : grammar * heap :=
  assign_grammar (mkGrammar here span0 []) (Some from) h.

(** TameParse/Language/lexeme_definition.h 58-75.  The copy constructor is the
    one of the compiler: it copies every field. *)
Record lexeme_definition := mkLexeme { l_at : nat; l_type : Z; l_name : list Z; l_definition : list Z; l_add : bool; l_replace : bool; l_span : span; l_pos : pos }.
Definition delete_lexeme (x : lexeme_definition) : list nat := [l_at x].
Definition copy_lexeme (here : nat) (from : lexeme_definition) (h : heap) : lexeme_definition * heap :=
  (mkLexeme here (l_type from) (l_name from) (l_definition from) (l_add from) (l_replace from) (l_span from) (l_pos from), h).

(** TameParse/Language/lexer_block.h 56-70. *)
Record lexer := mkLexer { x_at : nat; x_weak : option bool; x_insensitive : option bool; x_sensitive : option bool; x_span : span; x_lexemes : list lexeme_definition }.

(** TameParse/Language/lexer_block.cpp 46-52. *)
Definition destroy_lexer (x : lexer) : list nat := delete_all delete_lexeme (x_lexemes x).
Definition delete_lexer (x : lexer) : list nat := destroy_lexer x ++ [x_at x].

(** TameParse/Language/lexer_block.cpp 55-74: operator=, which does not mention
    the three flags. *)
Definition assign_lexer (this : lexer) (from : option lexer) (h : heap) : lexer * heap :=
  match from with
  | None => (this, h)
  | Some f =>
      let h0 := free (destroy_lexer this) h in
      let '(ls, h') := copy_all copy_lexeme (x_lexemes f) h0 in
      (mkLexer (x_at this) (x_weak this) (x_insensitive this) (x_sensitive this) (x_span f) ls, h')
  end.

(** TameParse/Language/lexer_block.cpp 41-43. *)
Definition copy_lexer (here : nat) (from : lexer) (h : heap) : lexer * heap :=
  assign_lexer (mkLexer here None None None span0 []) (Some from) h.

(** TameParse/Language/precedence_block.h 57-73. *)
Record level := mkLevel { v_assoc : Z; v_items : list item }.
Record precedence := mkPrecedence { e_at : nat; e_span : span; e_levels : list level }.

(** TameParse/Language/precedence_block.cpp 39-49. *)
Definition destroy_precedence (x : precedence) : list nat :=
  delete_all (fun v => delete_all delete_item (v_items v)) (e_levels x).
Definition delete_precedence (x : precedence) : list nat := destroy_precedence x ++ [e_at x].

(** TameParse/Language/precedence_block.h 73-90: there is no copy constructor.
    The one of the compiler copies the pointers: the copy holds the same
    items. *)
Definition copy_precedence (here : nat) (from : precedence) (h : heap) : precedence * heap :=
  (mkPrecedence here (e_span from) (e_levels from), h).

(** TameParse/Language/language_unit.h 66-75. *)
Record unit_ := mkUnit { u_at : nat; u_type : option Z; u_span : span; u_grammar : option grammar; u_lexer : option lexer; u_precedence : option precedence }.

(** TameParse/Language/language_unit.cpp 102-110. *)
Definition destroy_unit (x : unit_) : list nat :=
  delete_some delete_grammar (u_grammar x) ++ delete_some delete_lexer (u_lexer x) ++ delete_some delete_precedence (u_precedence x).
Definition delete_unit (x : unit_) : list nat := destroy_unit x ++ [u_at x].

(** TameParse/Language/language_unit.cpp 74-99: operator=. *)
Definition assign_unit (this : unit_) (from : option unit_) (h : heap) : unit_ * heap :=
  match from with
  | None => (this, h)
  | Some f =>
      let h0 := free (destroy_unit this) h in
      let '(g, h1) := copy_some copy_grammar (u_grammar f) h0 in
      let '(x, h2) := copy_some copy_lexer (u_lexer f) h1 in
      let '(e, h3) := copy_some copy_precedence (u_precedence f) h2 in
      (mkUnit (u_at this) (u_type f) (u_span f) g x e, h3)
  end.

(** TameParse/Language/language_unit.cpp 66-71. *)
Definition copy_unit (here : nat) (from : unit_) (h : heap) : unit_ * heap :=
  assign_unit (mkUnit here None span0 None None None) (Some from) h.

(** TameParse/Language/language_block.h 54-60. *)
Record language := mkLanguage { b_at : nat; b_name : list Z; b_inherits : list (list Z); b_span : span; b_units : list unit_ }.

(** TameParse/Language/language_block.cpp 73-79. *)
Definition destroy_language (x : language) : list nat := delete_all delete_unit (b_units x).
Definition delete_language (x : language) : list nat := destroy_language x ++ [b_at x].

(** TameParse/Language/language_block.cpp 46-70: operator=. *)
Definition assign_language (this : language) (from : option language) (h : heap) : language * heap :=
  match from with
  | None => (this, h)
  | Some f =>
      let h0 := free (destroy_language this) h in
      let '(us, h') := copy_all copy_unit (b_units f) h0 in
      (mkLanguage (b_at this) (b_name f) (b_inherits f) (b_span f) us, h')
  end.

(** TameParse/Language/language_block.cpp 41-43. *)
Definition copy_language (here : nat) (from : language) (h : heap) : language * heap :=
  assign_language (mkLanguage here [] [] span0 []) (Some from) h.

(** TameParse/Language/import_block.h 43 and parser_block.h 44-50, with the
    copy constructors of the compiler. *)
Record import := mkImport { m_at : nat; m_file : list Z; m_span : span }.
Definition delete_import (x : import) : list nat := [m_at x].
Definition copy_import (here : nat) (from : import) (h : heap) : import * heap :=
  (mkImport here (m_file from) (m_span from), h).

Record parser := mkParser { r_at : nat; r_name : list Z; r_language : list Z; r_starts : list (list Z); r_span : span }.
Definition delete_parser (x : parser) : list nat := [r_at x].
Definition copy_parser (here : nat) (from : parser) (h : heap) : parser * heap :=
  (mkParser here (r_name from) (r_language from) (r_starts from) (r_span from), h).

(** TameParse/Language/test_definition.h 53-68, with the copy constructor of
    the compiler. *)
Record test := mkTest { t_at : nat; t_language : list Z; t_nonterminal : list Z; t_type : Z; t_name : list Z; t_string : list Z; t_pos : pos; t_span : span }.
Definition delete_test (x : test) : list nat := [t_at x].
Definition copy_test (here : nat) (from : test) (h : heap) : test * heap :=
  (mkTest here (t_language from) (t_nonterminal from) (t_type from) (t_name from) (t_string from) (t_pos from) (t_span from), h).

(** TameParse/Language/test_block.h 49-52. *)
Record tests := mkTests { k_at : nat; k_language : list Z; k_span : span; k_tests : list test }.

(** TameParse/Language/test_block.cpp 66-72. *)
Definition destroy_tests (x : tests) : list nat := delete_all delete_test (k_tests x).
Definition delete_tests (x : tests) : list nat := destroy_tests x ++ [k_at x].

(** TameParse/Language/test_block.cpp 45-63: operator=, which does not mention
    the position. *)
Definition assign_tests (this : tests) (from : option tests) (h : heap) : tests * heap :=
  match from with
  | None => (this, h)
  | Some f =>
      let h0 := free (destroy_tests this) h in
      let '(ts, h') := copy_all copy_test (k_tests f) h0 in
      (mkTests (k_at this) (k_language f) (k_span this) ts, h')
  end.

(** TameParse/Language/test_block.cpp 40-42. *)
Definition copy_tests (here : nat) (from : tests) (h : heap) : tests * heap :=
  assign_tests (mkTests here [] span0 []) (Some from) h.

(** TameParse/Language/toplevel_block.h 44-53. *)
Record toplevel := mkToplevel { o_at : nat; o_span : span; o_language : option language; o_import : option import; o_parser : option parser; o_tests : option tests }.

(** TameParse/Language/toplevel_block.cpp 82-87. *)
Definition destroy_toplevel (x : toplevel) : list nat :=
  delete_some delete_import (o_import x) ++ delete_some delete_language (o_language x)
  ++ delete_some delete_parser (o_parser x) ++ delete_some delete_tests (o_tests x).
Definition delete_toplevel (x : toplevel) : list nat := destroy_toplevel x ++ [o_at x].

(** [if (copyFrom.p()) m_P = new …]: a pointer which is deleted keeps its value
    if the source has none. *)
Definition or_old {A} (new old : option A) : option A := match new with None => old | Some _ => new end.

(** TameParse/Language/toplevel_block.cpp 90-111: operator=. *)
Definition assign_toplevel (this : toplevel) (from : option toplevel) (h : heap) : toplevel * heap :=
  match from with
  | None => (this, h)
  | Some f =>
      let h0 := free (destroy_toplevel this) h in
      let '(l, h1) := copy_some copy_language (o_language f) h0 in
      let '(i, h2) := copy_some copy_import (o_import f) h1 in
      let '(p, h3) := copy_some copy_parser (o_parser f) h2 in
      let '(t, h4) := copy_some copy_tests (o_tests f) h3 in
      (mkToplevel (o_at this) (o_span f) (or_old l (o_language this)) (or_old i (o_import this))
                  (or_old p (o_parser this)) (or_old t (o_tests this)), h4)
  end.

(** TameParse/Language/toplevel_block.cpp 73-79. *)
Definition copy_toplevel (here : nat) (from : toplevel) (h : heap) : toplevel * heap :=
  assign_toplevel (mkToplevel here span0 None None None None) (Some from) h.

(** TameParse/Language/definition_file.h 51. *)
Record file := mkFile { f_at : nat; f_span : span; f_blocks : list toplevel }.

(** TameParse/Language/definition_file.cpp 34-35: the empty file. *)
Definition empty_file (here : nat) : file := mkFile here span0 [].

(** TameParse/Language/definition_file.cpp 75-85: add (of a block which is not
    NULL). *)
Definition add_block (f : file) (b : toplevel) : file :=
  let none := match f_blocks f with [] => true | _ :: _ => false end in
  let start := if none || pos_ltb (s_start (o_span b)) (s_start (f_span f)) then s_start (o_span b) else s_start (f_span f) in
  let stop := if none || pos_ltb (s_end (f_span f)) (s_end (o_span b)) then s_end (o_span b) else s_end (f_span f) in
  mkFile (f_at f) (mkSpan start stop) (f_blocks f ++ [b]).

(** TameParse/Language/definition_file.cpp 66-72. *)
Definition destroy_file (x : file) : list nat := delete_all delete_toplevel (f_blocks x).

(** TameParse/Language/definition_file.cpp 57-60: the loop of the copies. *)
Fixpoint add_copies (f : file) (l : list toplevel) (h : heap) : file * heap :=
  match l with
  | [] => (f, h)
  | b :: r =>
      let '(a, h1) := take h in
      let '(b', h2) := copy_toplevel a b h1 in
      add_copies (add_block f b') r h2
  end.

(** TameParse/Language/definition_file.cpp 43-63: operator=. *)
Definition assign_file (this : file) (from : option file) (h : heap) : file * heap :=
  match from with
  | None => (this, h)
  | Some f => add_copies (mkFile (f_at this) span0 []) (f_blocks f) (free (destroy_file this) h)
  end.

(** TameParse/Language/definition_file.cpp 38-40. *)
Definition copy_file (here : nat) (from : file) (h : heap) : file * heap :=
  assign_file (empty_file here) (Some from) h.
