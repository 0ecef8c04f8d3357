(** Specification of parsing: what it means for a list of lexemes to be in a language, and for a tree
    to be its parse tree. *)
From Verif Require Import Base GrammarModel LrItemModel ClosureSpec RunModel.
Local Open Scope Z_scope.

Section Parsing.
  Context (rules : Z -> list (list item)).
  (** The identifiers of rules and of items that a tree refers to *)
  Context (rid : rule -> Z) (ident : item -> Z).
  (** Lexemes: their symbols, and a lexeme changed to have another symbol *)
  Context (L : Type) (matched : L -> Z) (renamed : Z -> L -> L).
  (** [weak w s]: the weak symbol [w] may be read as [s].  [ignorable s]: [s] may be left out. *)
  Context (weak : Z -> Z -> Prop) (ignorable : Z -> Prop).

  (** [parses x tree w rest]: the item [x] stands for the lexemes [w] in a place where [rest] follows,
      with the given tree.  A guard stands for nothing, in a place where what follows begins with
      something its items stand for; its tree is a leaf with the lexeme that follows. *)
  Inductive parses : item -> ast L -> list L -> list L -> Prop :=
  | parses_term l rest : parses (ITerm (matched l)) (Leaf (Some l)) [l] rest
  | parses_weak l s rest : weak (matched l) s -> parses (ITerm s) (Leaf (Some (renamed s l))) [l] rest
  | parses_rule x r ts w rest : expands rules x r -> parses_all r ts w rest -> parses x (Node (ident x) (rid (mkRule x r)) ts) w rest
  | parses_guard p g ts w rest : parses_all g ts w rest -> parses (IGuard p g) (Leaf (hd_error (w ++ rest))) [] (w ++ rest)
  with parses_all : list item -> list (ast L) -> list L -> list L -> Prop :=
  | all_none rest : parses_all [] [] [] rest
  | all_ignored xs ts l w rest : ignorable (matched l) -> parses_all xs ts w rest -> parses_all xs ts (l :: w) rest
  | all_next x xs t ts w1 w2 rest : parses x t w1 (w2 ++ rest) -> parses_all xs ts w2 rest -> parses_all (x :: xs) (t :: ts) (w1 ++ w2) rest.

  (** What stands for itself in a sentential form: terminals and guards *)
  Definition shiftable (x : item) : Prop := (exists s, x = ITerm s) \/ exists p g, x = IGuard p g.
  (** [rightmost rs a b]: [b] is derived from [a] by replacing the last nonterminal each time, using the
      rules [rs] in this order. *)
  Inductive rightmost : list rule -> list item -> list item -> Prop :=
  | rightmost_none a : rightmost [] a a
  | rightmost_step r rs a w b : expands rules (r_nonterminal r) (r_items r) -> Forall shiftable w ->
      rightmost rs (a ++ r_items r ++ w) b -> rightmost (r :: rs) (a ++ r_nonterminal r :: w) b.
  (** The lexemes spell the terminals of a sentential form. *)
  Inductive spells : list item -> list L -> Prop :=
  | spells_none : spells [] []
  | spells_term l xs w : spells xs w -> spells (ITerm (matched l) :: xs) (l :: w)
  | spells_weak l s xs w : weak (matched l) s -> spells xs w -> spells (ITerm s :: xs) (l :: w)
  | spells_ignored l xs w : ignorable (matched l) -> spells xs w -> spells xs (l :: w)
  | spells_guard p g xs w : spells xs w -> spells (IGuard p g :: xs) w.

  (** The leaves of a tree, from left to right *)
  Fixpoint leaves (t : ast L) : list (option L) := match t with Leaf l => [l] | Node _ _ ts => flat_map leaves ts end.
  (** The value the actions give a tree *)
  Section Value.
    Context (V : Type) (shift_value : option L -> V) (reduce_value : Z -> Z -> list V -> V).
    Fixpoint value (t : ast L) : V := match t with Leaf l => shift_value l | Node n r ts => reduce_value n r (rev (map value ts)) end.
  End Value.
End Parsing.

(** More about trees *)
Section Trees.
  Context (rules : Z -> list (list item)) (rid : rule -> Z) (ident : item -> Z) (L : Type) (matched : L -> Z) (renamed : Z -> L -> L) (weak : Z -> Z -> Prop) (ignorable : Z -> Prop).
  (** Each node of a tree stands for a rule, with a child for each item of the rule. *)
  Inductive shaped : item -> ast L -> Prop :=
  | shaped_leaf x l : shiftable x -> shaped x (Leaf l)
  | shaped_node x r ts : expands rules x r -> Forall2 shaped r ts -> shaped x (Node (ident x) (rid (mkRule x r)) ts).
  (** The lexemes of a list in order: some renamed, some left out *)
  Inductive reads : list (option L) -> list L -> Prop :=
  | reads_none : reads [] []
  | reads_same l ls w : reads ls w -> reads (Some l :: ls) (l :: w)
  | reads_weak l s ls w : weak (matched l) s -> reads ls w -> reads (Some (renamed s l) :: ls) (l :: w)
  | reads_ignored l ls w : ignorable (matched l) -> reads ls w -> reads ls (l :: w).
End Trees.
