(** The positions of definition objects: how adding parts changes them
    (TameParse/Language), and how the reader of definition files sets them.

    Simplification: an item is its position and its children, since nothing
    else is used here. *)

From Coq Require Import List ZArith Bool.
From Verif Require Import DefCopyModel.
Import ListNotations.

Inductive shape := Shape (w : span) (parts : list shape).
Definition span_of (x : shape) : span := let '(Shape w _) := x in w.

(** The comparison of two spans with the default one: [a != position() || b != position()]. *)
Definition placed (w : span) : bool := negb (pos_eqb (s_start w) pos0) || negb (pos_eqb (s_end w) pos0).

(** TameParse/Language/ebnf_item.cpp 92-114: add_child.  Line 106 sets the end
    of the item to the end of the item. *)
Definition add_child (this child : shape) : shape :=
  let '(Shape w cs) := this in
  let n := span_of child in
  let w' :=
    if placed n then
      if pos_eqb (s_start w) pos0 && pos_eqb (s_end w) pos0 then mkSpan (s_start n) (s_end n)
      else
        let start := if pos_ltb (s_start n) (s_start w) then s_start n else s_start w in
        let stop := if pos_ltb (s_end w) (s_end n) then s_end w else s_end w in
        mkSpan start stop
    else w in
  Shape w' (cs ++ [child]).

(** TameParse/Language/production_definition.cpp 76-91: add_item.  Line 85 sets
    the start of the production to the end of the item. *)
Definition add_item (w n : span) : span :=
  let w1 := if pos_eqb (s_start w) (s_end w) then n else w in
  let start := if pos_ltb (s_start n) (s_start w1) then s_end n else s_start w1 in
  let w2 := mkSpan start (s_end w1) in
  if pos_ltb (s_end w2) (s_end n) then mkSpan (s_start w2) (s_end n) else w2.

(** The syntax trees of the reader, with the positions that pos() and
    final_pos() give for them. *)
Inductive simple :=
| Symbol (w : span)
| GuardOf (w : span) (content : ebnf)
| Suffix (w : span) (x : simple)
| Paren (w : span) (content : ebnf)
with ebnf := Ebnf (w : span) (items : list simple) (alternative : option ebnf).

(** TameParse/Language/language_parser.cpp 236-269: the loop which sticks the
    items together. *)
Fixpoint stick (w : span) (result : option shape) (parenthesized : bool) (l : list shape) : option shape :=
  match l with
  | [] => result
  | x :: r =>
      match result with
      | None => stick w (Some x) parenthesized r
      | Some y =>
          if parenthesized then stick w (Some (add_child y x)) parenthesized r
          else stick w (Some (add_child (add_child (Shape w []) y) x)) true r
      end
  end.

(** TameParse/Language/language_parser.cpp 267-291: the rest of the
    definition of an Ebnf_Item; 294-421: a Simple_Ebnf_Item.  A guard is made
    without a position. *)
Fixpoint make_simple (x : simple) : shape :=
  match x with
  | Symbol w => Shape w []
  | GuardOf _ e => add_child (Shape span0 []) (make_ebnf e)
  | Suffix w y => add_child (Shape w []) (make_simple y)
  | Paren _ e => make_ebnf e
  end
with make_ebnf (e : ebnf) : shape :=
  let '(Ebnf w items alternative) := e in
  let result := match stick w None false (map make_simple items) with None => Shape w [] | Some y => y end in
  match alternative with
  | None => result
  | Some a => add_child (add_child (Shape w []) result) (make_ebnf a)
  end.

(** TameParse/Language/language_parser.cpp 424-450: a production; only its
    position. *)
Definition make_production (w : span) (items : list simple) : span :=
  fold_left (fun v x => add_item v (span_of (make_simple x))) items w.

(** TameParse/Language/toplevel_block.cpp 33-70: the four constructors. *)
Definition of_language (here : nat) (l : language) : toplevel := mkToplevel here (b_span l) (Some l) None None None.
Definition of_import (here : nat) (i : import) : toplevel := mkToplevel here (m_span i) None (Some i) None None.
Definition of_parser (here : nat) (p : parser) : toplevel := mkToplevel here span0 None None (Some p) None.
Definition of_tests (here : nat) (t : tests) : toplevel := mkToplevel here span0 None None None (Some t).
