(** Specification of FOLLOW sets. *)
From Verif Require Import Base OrdMap GrammarModel FirstModel FirstSpec.
Local Open Scope Z_scope.

Section Grammar.
  Context (nonterminals : list (Z * list (list item))).
  Definition rules_of (n : Z) : list (list item) := concat (map snd (filter (fun p => fst p =? n) nonterminals)).

  (** [position nt i post]: in a sequence for [nt], [i] is followed by [post]. *)
  Inductive position : item -> item -> list item -> Prop :=
  | in_rule n rs pre i post : In (n, rs) nonterminals -> In (pre ++ i :: post) rs -> position (INonterm n) i post
  | in_ebnf nt k rs after pre i post : position nt (IEbnf k rs) after -> In (pre ++ i :: post) rs -> position (IEbnf k rs) i post.

  (** FOLLOW relative to given FIRST sets *)
  Section Relative.
    Context (first_of : item -> iset).
    Definition can_skip (l : list item) : Prop := forall i, In i l -> In IEmpty (first_of i).
    Inductive follows : item -> item -> Prop :=
    | follows_next nt i p y q x : position nt i (p ++ y :: q) -> (forall t, i <> ITerm t) -> can_skip p -> In x (first_of y) -> follows i x
    | follows_end nt i post x : position nt i post -> (forall t, i <> ITerm t) -> can_skip post -> follows nt x -> follows i x.
  End Relative.

  (** The textbook definition: the symbols that come directly after [i] in some sentential form.
      The end of a repeated sequence is followed by its start. *)
  Definition repeats (i : item) : Prop := match i with IEbnf Repeat _ | IEbnf RepeatZero _ => True | _ => False end.
  Inductive comes_after : item -> item -> Prop :=
  | after_next nt i post x : position nt i post -> sequence_starts rules_of post x -> comes_after i x
  | after_end nt i post x : position nt i post -> nullables rules_of post -> comes_after nt x -> comes_after i x
  | after_again nt i post r x : position nt i post -> nullables rules_of post -> repeats nt -> has_body rules_of nt r -> sequence_starts rules_of r x -> comes_after i x.
  Definition no_repeats : Prop := forall nt i post, position nt i post -> ~ repeats i.
End Grammar.
