(** What a text shows: the structure of an item with the names of its symbols, and the names that can be
    told apart in a text. *)
From Verif Require Import Base GrammarModel LrItemModel ActionModel BuilderModel ConflictModel NamesModel FormatModel.
Local Open Scope Z_scope.

(** ** Names *)
(** A character that can be part of a word: not a space, a line break, one of ()[]?+*|,^$%= or a quote *)
Definition word_char (c : Z) : Prop := ~ In c [32; 10; 40; 41; 91; 93; 63; 43; 42; 124; 44; 94; 36; 37; 61; 34; 39].
(** The inside of a string: other characters than quote and backslash, and escape sequences, on one line *)
Inductive string_body : str -> Prop :=
| body_end : string_body []
| body_plain c b : c <> 34 -> c <> 92 -> c <> 10 -> string_body b -> string_body (c :: b)
| body_escape c b : c <> 10 -> string_body b -> string_body (92 :: c :: b).
(** Identifiers, strings and characters as written in definition files (definition.tp 10-34) *)
Inductive terminal_like : str -> Prop :=
| like_word c n : c <> 60 -> word_char c -> Forall word_char n -> terminal_like (c :: n)
| like_string b : string_body b -> terminal_like (34 :: b ++ [34])
| like_char c : c <> 10 -> terminal_like [39; c; 39]
| like_escaped c : c <> 10 -> terminal_like [39; 92; c; 39].
(** <name> *)
Inductive nonterminal_like : str -> Prop := like_angles n : Forall word_char n -> nonterminal_like (60 :: n).

(** ** What can be seen of an item: its structure and the names of its symbols, but not the numbers of the
    symbols and not the priority of a guard *)
Inductive seen := SEmpty | SEoi | SEog | STerm (n : str) | SNonterm (n : str) | SGuard (l : list seen) | SEbnf (k : ebnf_kind) (rules : list (list seen)).

Section Names.
  Context (terminal_name nonterminal_name : Z -> str).
  Fixpoint see (i : item) : seen :=
    match i with
    | IEmpty => SEmpty
    | IEoi => SEoi
    | IEog => SEog
    | ITerm s => STerm (terminal_name s)
    | INonterm s => SNonterm (nonterminal_name s)
    | IGuard _ l => SGuard (map see l)
    | IEbnf k rules => SEbnf k (map (map see) rules)
    end.
  (** The names are as in definition files, and an optional or repeated item has one rule *)
  Fixpoint legible (i : item) : Prop :=
    match i with
    | IEmpty | IEoi | IEog => True
    | ITerm s => terminal_like (terminal_name s)
    | INonterm s => nonterminal_like (nonterminal_name s)
    | IGuard _ l => fold_right (fun i p => legible i /\ p) True l
    | IEbnf k rules => (k <> Alternative -> length rules = 1%nat) /\ fold_right (fun l p => fold_right (fun i p => legible i /\ p) True l /\ p) True rules
    end.
  (** All the guards have the same priority *)
  Fixpoint guards_at (p : Z) (i : item) : Prop :=
    match i with
    | IGuard q l => q = p /\ fold_right (fun i P => guards_at p i /\ P) True l
    | IEbnf _ rules => fold_right (fun l P => fold_right (fun i P => guards_at p i /\ P) True l /\ P) True rules
    | _ => True
    end.
  (** Different symbols have different names *)
  Definition told_apart : Prop := (forall s t, terminal_name s = terminal_name t -> s = t) /\ (forall s t, nonterminal_name s = nonterminal_name t -> s = t).
  Definition legible_rule (r : rule) : Prop := legible (r_nonterminal r) /\ forall i, In i (r_items r) -> legible i.
  Definition see_rule (r : rule) : seen * list seen := (see (r_nonterminal r), map see (r_items r)).
  (** An LR item: a rule with the dot in it or at one of its ends *)
  Definition legible_lr0 (k : lr0) : Prop := legible_rule (l_rule k) /\ (l_offset k <= length (r_items (l_rule k)))%nat.
  Definition see_lr0 (k : lr0) : (seen * list seen) * nat := (see_rule (l_rule k), l_offset k).
  Definition legible_entry (x : lr0 * list item) : Prop := legible_lr0 (fst x) /\ forall i, In i (snd x) -> legible i.
  Definition see_entry (x : lr0 * list item) := (see_lr0 (fst x), map see (snd x)).
  (** What can be seen of an action: its type, its symbol, the state of a shift or goto, the rule of the others *)
  Definition has_state (t : action_type) : bool := match t with Shift | ShiftStrong | Goto => true | _ => false end.
  Definition has_rule (t : action_type) : bool := match t with Reduce | WeakReduce | Accept | Guard => true | _ => false end.
  Definition same_action (a b : action) : Prop :=
    a_type a = a_type b /\ see (a_item a) = see (a_item b) /\ (has_state (a_type a) = true -> a_next a = a_next b) /\
    (has_rule (a_type a) = true -> see_rule (a_rule a) = see_rule (a_rule b)).
  Definition legible_action (a : action) : Prop := legible (a_item a) /\ (has_rule (a_type a) = true -> legible_rule (a_rule a)).
  Definition legible_conflict (c : conflict) : Prop :=
    legible (f_token c) /\ (forall k, In k (f_shift c) -> legible_lr0 k) /\ (forall k, In k (f_reduce c) -> legible_lr0 (fst k)).
  Definition see_conflict (c : conflict) := (f_state c, see (f_token c), map see_lr0 (f_shift c), map (fun k => see_lr0 (fst k)) (f_reduce c)).

  (** A tree made by the parser: inner nodes with an item, leaves with a lexeme.  The text of a lexeme can be
      anything. *)
  Inductive seen_node := SInner (i : seen) (children : list seen_node) | SLeaf (n content : str) (children : list seen_node) | SOther (children : list seen_node).
  Fixpoint see_node (n : node) : seen_node :=
    match n with
    | Node (Some i) _ l => SInner (see i) (map see_node l)
    | Node None (Some x) l => SLeaf (terminal_name (fst x)) (snd x) (map see_node l)
    | Node None None l => SOther (map see_node l)
    end.
  Inductive legible_node : node -> Prop :=
  | legible_inner i l : legible i -> (forall c, In c l -> legible_node c) -> legible_node (Node (Some i) None l)
  | legible_leaf s x : terminal_like (terminal_name s) -> legible_node (Node None (Some (s, x)) []).
End Names.
