(** What it means for the object made from generated arrays to be the same as the tables of the parser. *)
From Verif Require Import Base ActionModel TableModel EmitModel.
Local Open Scope Z_scope.

(** Every way of reading the tables gives the same answer for every state, symbol and rule (valid or not:
    [None] on both sides is a read outside the arrays). *)
Record same_tables (em : emitted) (t : tables) : Prop := {
  same_states : em_states em = Z.of_nat (length (t_terminals t));
  same_terminal : forall q s, object_terminal em q s = option_map (map raw_of) (find_terminal t q s);
  same_nonterminal : forall q s, object_nonterminal em q s = option_map (map raw_of) (find_nonterminal t q s);
  same_guard : forall q, object_guard em q = Some (has_end_of_guard t q);
  same_strong : forall w, object_strong em w = Some (strong_for_weak t w);
  same_rule : forall n, object_rule em n = option_map (fun r => (rr_identifier r, rr_rule r, rr_length r)) (rule_at t n);
  same_eoi : em_eoi em = t_eoi t;
  same_eog : em_eog em = t_eog t }.

(** An array of unknown bound must not have an empty initialiser in C++. *)
Definition arrays_nonempty (em : emitted) : Prop :=
  em_terminal_data em <> [] /\ em_terminal_rows em <> [] /\ em_nonterminal_data em <> [] /\ em_nonterminal_rows em <> [] /\
  em_counts em <> [] /\ em_guards em <> [] /\ em_rules em <> [] /\ em_weak em <> [].
