(** Independent specification of lexing. *)
From Verif Require Import Base OrdMap SymbolSetModel SymbolMapModel NdfaModel StateMachineSpec LexerModel.
Local Open Scope Z_scope.

Section Munch.
  (** One step of the state machine and the symbol each state accepts ([None]: the table
      has no entry). *)
  Variable run : Z -> Z -> option Z.
  Variable accept : Z -> option Z.

  (** Started in [q], the machine accepts the non-empty text [p] with symbol [a]. *)
  Definition matches (q : Z) (p : list Z) (a : Z) : Prop :=
    p <> [] /\ exists s, run_word run q p = Some s /\ 0 <= s /\ accept s = Some a /\ 0 <= a.

  (** [p], with symbol [a], is what has to be taken from the front of [text]: the longest
      prefix the machine accepts or, if there is none, one character with symbol -1. *)
  Definition longest_match (q : Z) (text p : list Z) (a : Z) : Prop :=
    (exists rest, text = p ++ rest) /\
    ((matches q p a /\ forall p' rest' a', text = p' ++ rest' -> matches q p' a' -> (length p' <= length p)%nat) \/
     (length p = 1%nat /\ a = -1 /\ forall p' rest' a', text = p' ++ rest' -> ~ matches q p' a')).

  (** The tables are large enough: from the states in [valid] the machine, reading symbols of
      [text], stays in them. *)
  Definition tables_ok (valid : Z -> Prop) (text : list Z) : Prop :=
    forall q c, valid q -> In c text ->
      exists r, run q c = Some r /\ (0 <= r -> valid r /\ exists a, accept r = Some a).
End Munch.

(** ** Positions *)

(** Line breaks: LF, VT, FF, CR, NEL, LS, PS *)
Definition is_break (c : Z) : Prop := In c [10; 11; 12; 13; 133; 8232; 8233].
Definition is_break_b (c : Z) : bool := existsb (Z.eqb c) [10; 11; 12; 13; 133; 8232; 8233].

(** Character [i] of the text starts a new line: it is a break, and not the LF of a CR LF. *)
Definition starts_line (text : list Z) (i : nat) : bool :=
  match nth_error text i with
  | None => false
  | Some c => is_break_b c && negb ((c =? 10) && match i with O => false | S j => nth j text 0 =? 13 end)
  end.
Definition line_of (text : list Z) : nat := length (filter (starts_line text) (seq 0 (length text))).

(** The number of characters after the last break *)
Fixpoint until_break (l : list Z) : nat :=
  match l with [] => 0%nat | c :: l => if is_break_b c then 0%nat else S (until_break l) end.
Definition column_of (text : list Z) : nat := until_break (rev text).

(** The breaks that the code does not count in the offset: all but LF *)
Definition uncounted (c : Z) : bool := is_break_b c && negb (c =? 10).
Definition counted_of (text : list Z) : nat := length (filter (fun c => negb (uncounted c)) text).

(** ** Sequences of lexemes *)

(** What a sequence of lexemes covers *)
Definition contents (ls : list lexeme) : list Z := concat (map lx_content ls).

(** The state in which the next lexeme starts, given those before it (latest first): the one
    last set by the client, else [first] at the start, [newlineState] after a break, and 0
    everywhere else. *)
Definition default_state (first newlineState : Z) (seen : list lexeme) : Z :=
  match seen with
  | [] => first
  | l :: _ => if is_break_b (last (lx_content l) 0) then newlineState else 0
  end.
Definition start_state (first newlineState : Z) (client : list lexeme -> option Z) (seen : list lexeme) : Z :=
  match client seen with Some s => s | None => default_state first newlineState seen end.

(** ** Priorities *)

(** [better a b]: the order of priority in the documentation. *)
Definition better (a b : language_action) : Prop :=
  (la_weak a = true /\ la_weak b = false) \/
  (la_weak a = la_weak b /\ (la_unit a < la_unit b \/ (la_unit a = la_unit b /\ la_symbol a < la_symbol b))).


(** An order of priority: irreflexive, transitive, and "not above" transitive as well *)
Record action_order {A} (less : A -> A -> bool) : Prop := {
  ao_irrefl : forall a, less a a = false;
  ao_trans : forall a b c, less a b = true -> less b c = true -> less a c = true;
  ao_weak : forall a b c, less a b = false -> less b c = false -> less a c = false }.

(** Cutting the longest match of a language from a text, where a word may be in the language
    with several actions: [p] is the longest non-empty prefix in the language and [a] the
    symbol of an action [b] that none of its actions is above; or [p] is one character. *)
Definition munch {A} (less : A -> A -> bool) (symbol : A -> Z) (L : list Z -> A -> Prop) (text p : list Z) (a : Z) : Prop :=
  (exists rest, text = p ++ rest) /\
  ((p <> [] /\ (exists b, L p b /\ symbol b = a /\ forall b', L p b' -> less b b' = false) /\
    forall p' rest' b', text = p' ++ rest' -> p' <> [] -> L p' b' -> (length p' <= length p)%nat) \/
   (length p = 1%nat /\ a = -1 /\ forall p' rest' b', text = p' ++ rest' -> p' <> [] -> ~ L p' b')).

(** The states of an automaton *)
Definition valid_state {A} (d : ndfa A) (q : Z) : Prop := 0 <= q < Z.of_nat (count_states d).
