(** Model of the example language for the context-sensitive language a^n b^n c^n
    (Examples/ContextSensitive.tp 10-24), and of the parser that the program makes for it. *)
From Verif Require Import Base OrdMap GrammarModel TableModel RunModel RunTool.
Local Open Scope Z_scope.

(** The terminals 'a', 'b' and 'c', numbered as in the examples of this development *)
Definition sym_a : Z := 4.
Definition sym_b : Z := 5.
Definition sym_c : Z := 6.
(** 23: [=> <Matching-Bs> 'c'] *)
Definition bs_guard : item := IGuard 0 [INonterm 1; ITerm sym_c].
(** 10-24: 0 is <Context-Sensitive>, 1 <Matching-Bs>, 2 <Matching-Cs>.  3 is 'b'*, with the rules that such
    an item has in the parser (grammar and lr closure, [expands] in ClosureSpec); a nonterminal stands for the
    item *)
Definition anbncn : grammar_of :=
  [(0, [[bs_guard; INonterm 2]]);
   (1, [[ITerm sym_a; INonterm 1; ITerm sym_b]; [ITerm sym_a; ITerm sym_b]]);
   (2, [[ITerm sym_a; INonterm 2; ITerm sym_c]; [ITerm sym_a; INonterm 3; ITerm sym_c]]);
   (3, [[]; [INonterm 3; ITerm sym_b]])].
Definition anbncn_items : list item := [INonterm 0; INonterm 1; INonterm 2; INonterm 3; bs_guard; ITerm sym_a; ITerm sym_b; ITerm sym_c].
(** The tables for the start symbol <Context-Sensitive> *)
Definition anbncn_tables : tables :=
  match tool anbncn anbncn_items [INonterm 0] with
  | Some (_, _, actss) => tool_tables anbncn anbncn_items [INonterm 0] actss []
  | None => mkTables [] [] 0 0 [] [] []
  end.
