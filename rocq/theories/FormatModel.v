(** Model of the texts in which grammars, parser states and syntax trees are shown to the user
    (TameParse/Language/formatter.cpp), as in the messages of the compiler about conflicts and guards and
    in the listings of the tools.  Strings are lists of character codes; [endl] of a stream is the character
    10. *)
From Coq Require Import String.
From Verif Require Import Base GrammarModel LrItemModel ActionModel BuilderModel ConflictModel NamesModel.
Local Open Scope Z_scope.

(** operator<< of a stream for an int *)
Definition number (z : Z) : str := if z <? 0 then 45 :: digits (Z.to_nat (- z)) else digits (Z.to_nat z).
(** formatter.cpp 117-119 *)
Definition suffix (k : ebnf_kind) : str := match k with Optional => codes "?" | Repeat => codes "+" | RepeatZero => codes "*" | Alternative => [] end.

(** formatter.cpp 169-193: the items of a rule from position [pos] on.  [first]: nothing has been written;
    [dot]: the position of the dot *)
Section Items.
  Context (show : item -> str).
  Fixpoint items_text (dot pos : Z) (first : bool) (l : list item) : str :=
    match l with
    | [] => if dot =? pos then (if first then [] else codes " ") ++ codes "^" else []
    | i :: l => (if first then [] else codes " ") ++ (if dot =? pos then codes "^ " else []) ++ show i ++ items_text dot (pos + 1) false l
    end.
End Items.
(** formatter.cpp 91-103: the rules of an alternative *)
Section Rules.
  Context (show : list item -> str).
  Fixpoint rules_text (first : bool) (rules : list (list item)) : str :=
    match rules with
    | [] => []
    | r :: rules => codes " " ++ (if first then [] else codes "| ") ++ show r ++ rules_text false rules
    end.
End Rules.

Section Format.
  (** terminal_dictionary::name_for_symbol and grammar::name_for_nonterminal *)
  Context (terminal_name nonterminal_name : Z -> str).

  (** formatter.cpp 62-127.  The items that a user could derive ("???") are not modelled; an EBNF item other
      than an alternative has one rule (GrammarModel.v). *)
  Fixpoint show_item (i : item) : str :=
    match i with
    | IEmpty => codes "[empty]"
    | IEoi => codes "$"
    | IEog => codes "%"
    | ITerm s => terminal_name s
    | INonterm s => nonterminal_name s
    | IGuard _ l => codes "[=> " ++ items_text show_item (-1) 0 true l ++ codes "]"
    | IEbnf Alternative rules => codes "(" ++ rules_text (fun r => items_text show_item (-1) 0 true r) true rules ++ codes " )"
    | IEbnf k rules => codes "( " ++ match rules with r :: _ => items_text show_item (-1) 0 true r | [] => [] end ++ codes " )" ++ suffix k
    end.
  (** formatter.cpp 159-197.  A dot position of -1 stands for no dot. *)
  Definition show_rule (r : rule) (dot : Z) (nonterminal : bool) : str :=
    (if nonterminal then show_item (r_nonterminal r) ++ codes " = " else []) ++ items_text show_item dot 0 true (r_items r).
  (** formatter.cpp 140-150, 248-258 and 293-300: texts with commas between them *)
  Fixpoint commas (first : bool) (l : list item) : str :=
    match l with
    | [] => []
    | i :: l => (if first then [] else codes ", ") ++ show_item i ++ commas false l
    end.
  (** formatter.cpp 130-156 *)
  Definition show_set (l : list item) : str := codes "(" ++ commas true l ++ codes ")".
  (** formatter.cpp 229-231 *)
  Definition show_lr0 (k : lr0) : str := show_rule (l_rule k) (Z.of_nat (l_offset k)) true.
  (** formatter.cpp 234-266: the lookahead is shown in square brackets if there is any *)
  Definition show_lr1 (k : lr0) (look : list item) : str :=
    show_lr0 k ++ match look with [] => [] | _ => codes " [" ++ commas true look ++ codes "]" end.
  (** formatter.cpp 269-305: a state without its closure, for its items in their order with their lookahead *)
  Fixpoint show_state (first : bool) (l : list (lr0 * list item)) : str :=
    match l with
    | [] => []
    | (k, look) :: l => (if first then [] else [10]) ++ show_lr0 k ++ match look with [] => [] | _ => codes " (" ++ commas true look ++ codes ")" end ++ show_state false l
    end.
  (** formatter.cpp 337-401 *)
  Definition show_action (a : action) : str :=
    match a_type a with
    | Accept => codes "Accept "
    | Divert => codes "Divert "
    | Guard => codes "Guard "
    | Goto => codes "Goto " ++ number (a_next a) ++ codes " "
    | Ignore => codes "Ignore "
    | Reduce => codes "Reduce "
    | WeakReduce => codes "Weak reduce "
    | Shift => codes "Shift to " ++ number (a_next a) ++ codes " "
    | ShiftStrong => codes "Shift strong equivalent to " ++ number (a_next a) ++ codes " "
    end ++ codes "on " ++ show_item (a_item a) ++
    match a_type a with
    | Reduce | WeakReduce | Accept | Guard => codes " (" ++ show_rule (a_rule a) (-1) true ++ codes ")"
    | _ => []
    end.
  (** formatter.cpp 470-520 *)
  Definition show_conflict (c : conflict) : str :=
    match f_shift c with [] => codes "Reduce/reduce conflict" | _ => codes "Shift/reduce conflict" end ++
    codes " in state " ++ number (f_state c) ++ codes " on " ++ show_item (f_token c) ++
    match f_shift c with [] => [] | _ => 10 :: codes "  Shift:" end ++
    flat_map (fun k => 10 :: codes "    " ++ show_lr0 k) (f_shift c) ++
    match f_shift c with [] => 10 :: codes "  Reduce:" | _ => 10 :: codes "  Or reduce:" end ++
    flat_map (fun k => 10 :: codes "    " ++ show_lr0 (fst k)) (f_reduce c).

  (** util::astnode (astnode.h 43-106): the item of a node, if it has one, the symbol and the content of its
      lexeme, if it has one, and its children.  The rule is not shown. *)
  Inductive node := Node (i : option item) (lexeme : option (Z * str)) (children : list node).
  (** formatter.cpp 527-539.  grammar::item_with_identifier is left out: the node holds the item. *)
  Definition show_head (i : option item) (lexeme : option (Z * str)) : str :=
    let shown l := terminal_name (fst l) ++ codes " """ ++ snd l ++ codes """" in
    match i, lexeme with
    | Some i, Some l => show_item i ++ codes " " ++ shown l
    | Some i, None => show_item i
    | None, Some l => shown l
    | None, None => codes "(Unknown symbol)"
    end.
  (** formatter.cpp 551-560: the text of a child with its lines moved to the right *)
  Definition indent (more : bool) (s : str) : str :=
    flat_map (fun c => c :: if c =? 10 then if more then codes "|  " else codes "   " else []) s.
  (** formatter.cpp 523-564 *)
  Section Children.
    Context (show : node -> str).
    Fixpoint children_text (l : list node) : str :=
      match l with
      | [] => []
      | c :: l => 10 :: codes "+- " ++ indent (match l with [] => false | _ => true end) (show c) ++ children_text l
      end.
  End Children.
  Fixpoint show_node (n : node) : str :=
    match n with Node i lexeme children => show_head i lexeme ++ children_text show_node children end.
End Format.
