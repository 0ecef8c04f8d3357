(** Independent specification of the lexer stage. *)
From Verif Require Import Base OrdMap SymbolSetModel SymbolMapModel NdfaModel LexerModel LexerSpec RegexModel RegexSpec LexStageModel.
Local Open Scope Z_scope.

(** A definition of a symbol, as the author of the language meant it *)
Record lex_def := mkDef { ld_tree : tree; ld_insensitive : bool; ld_symbol : Z; ld_unit : Z; ld_weak : bool }.
Definition def_item (i : lex_def) : lex_item := mkItem (tree_text (ld_tree i)) (ld_insensitive i) (ld_symbol i) (ld_unit i) (ld_weak i).

Section Spec.
  Context (expressions literals : list Z -> option (list Z)) (category : list Z -> option symbol_set) (defined : list Z -> list (bool * bool * token)) (used : Z -> bool).

  (** An ignored symbol that the grammar does not use *)
  Definition unused_ignored (i : lex_def) : bool := (ld_unit i =? unit_ignore) && negb (used (ld_symbol i)).

  (** They all count as the first of them. *)
  Definition ignored_symbol (defs : list lex_def) : Z := match find unused_ignored defs with Some i => ld_symbol i | None => -1 end.
  Definition def_action (defs : list lex_def) (i : lex_def) : language_action :=
    if unused_ignored i then mkLA (ignored_symbol defs) unit_ignore false else mkLA (ld_symbol i) (ld_unit i) (ld_weak i).

  (** The words of a language block: those that one of the definitions matches *)
  Definition block_words (defs : list lex_def) (w : list Z) (a : language_action) : Prop :=
    exists i, In i defs /\ ld_unit i <> unit_null /\ tree_matches false (ld_insensitive i) (ld_tree i) w /\ a = def_action defs i.

  (** The definitions the theorems cover: those of C11, with symbols that are not negative *)
  Definition def_ok (i : lex_def) : Prop :=
    (ld_unit i <> unit_null -> tree_ok expressions literals category defined false (ld_insensitive i) (ld_tree i)) /\ 0 <= ld_symbol i.

  (** [t] is a symbol that the word [w] can get: one of its actions, and none is better. *)
  Definition generates (defs : list lex_def) (w : list Z) (t : Z) : Prop :=
    exists a, block_words defs w a /\ la_symbol a = t /\ forall b, block_words defs w b -> ~ better b a.
End Spec.

Section Cuts.
  Context (used : Z -> bool) (defs : list lex_def).

  (** What has to be cut off a text: the longest non-empty prefix that is a word, with the symbol
      it gets; or, if no prefix is a word, one character without a symbol. *)
  Definition cuts (text p : list Z) (a : Z) : Prop :=
    (exists rest, text = p ++ rest) /\
    ((p <> [] /\ generates used defs p a /\
      forall p' rest' b, text = p' ++ rest' -> p' <> [] -> block_words used defs p' b -> (length p' <= length p)%nat) \/
     (length p = 1%nat /\ a = -1 /\ forall p' rest' b, text = p' ++ rest' -> p' <> [] -> ~ block_words used defs p' b)).

  (** On [w], the definition with action [a] loses against another with symbol [s] (or ties). *)
  Definition loses (w : list Z) (a : language_action) (s : Z) : Prop :=
    block_words used defs w a /\ exists b, block_words used defs w b /\ la_symbol b = s /\ ~ better a b.
End Cuts.
