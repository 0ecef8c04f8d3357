(** Independent specification of the lexer side of weak symbols. *)
From Verif Require Import Base OrdMap NdfaModel LexerModel LexerSpec LexStageModel LexStageSpec.
Local Open Scope Z_scope.

Section Spec.
  (** [has] are the symbols that a word or a state can get, [weak] the weak symbols. *)
  Context (weak : Z -> bool) (has : Z -> Prop).

  (** A weak symbol meets a strong one. *)
  Definition clashing : Prop := (exists s, has s /\ weak s = true) /\ (exists s, has s /\ weak s = false).
  (** The strong symbol with the lowest identifier *)
  Definition lowest_strong (s : Z) : Prop := has s /\ weak s = false /\ forall t, has t -> weak t = false -> s <= t.
End Spec.

(** The symbols of the actions of a state *)
Definition has_symbol (d : ndfa any_action) (q : nat) (s : Z) : Prop := exists a, In a (NdfaModel.actions_for_state d q) /\ any_symbol a = s.

Section Cuts.
  Context (weak : Z -> bool) (used : Z -> bool) (defs : list lex_def) (parent : Z -> Z) (stands_for : Z -> option Z).

  Definition word_symbol (w : list Z) (s : Z) : Prop := exists a, block_words used defs w a /\ la_symbol a = s.

  (** The symbol that a word gets: as before without a clash; in a clash, a symbol that comes from
      a weak symbol of the word and stands for the lowest of its strong symbols. *)
  Definition weak_generates (w : list Z) (c : Z) : Prop :=
    (~ clashing weak (word_symbol w) /\ generates used defs w c) \/
    (clashing weak (word_symbol w) /\ exists s, word_symbol w (parent c) /\ weak (parent c) = true /\
       lowest_strong weak (word_symbol w) s /\ stands_for c = Some s).

  Definition weak_cuts (text p : list Z) (c : Z) : Prop :=
    (exists rest, text = p ++ rest) /\
    ((p <> [] /\ weak_generates p c /\
      forall p' rest' b, text = p' ++ rest' -> p' <> [] -> block_words used defs p' b -> (length p' <= length p)%nat) \/
     (length p = 1%nat /\ c = -1 /\ forall p' rest' b, text = p' ++ rest' -> p' <> [] -> ~ block_words used defs p' b)).
End Cuts.
