(** What C++ asks of names, and what makes names clash. *)
From Verif Require Import Base NamesModel.
Local Open Scope Z_scope.

(** A C++ identifier: letters, digits and underscores, not beginning with a digit *)
Definition name_char (c : Z) : Prop := 65 <= c <= 90 \/ 97 <= c <= 122 \/ 48 <= c <= 57 \/ c = 95.
Definition valid_identifier (s : str) : Prop :=
  match s with
  | [] => False
  | c :: _ => ~ (48 <= c <= 57) /\ Forall name_char s
  end.
(** [b] is [a] followed by an underscore and a number *)
Definition numbered (a b : str) : Prop := exists n, b = a ++ 95 :: digits n.
