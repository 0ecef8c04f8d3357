(** Model of the lexer stage: TameParse/Compiler/lexer_stage.cpp 271-562 and the part of
    TameParse/Lr/weak_symbols.cpp that works on the DFA.  No proofs in this file. *)
From Verif Require Import Base OrdMap SymbolSetModel SymbolMapModel NdfaModel NdfaReduceModel TextModel LexerModel RegexModel.
Local Open Scope Z_scope.

(** language_unit.h 41-62: the numbers of the kinds of units that matter here *)
Definition unit_null : Z := 0.
Definition unit_ignore : Z := 4.

(** lexer_item.h 39-80: one definition of a symbol.  File name and position serve only messages;
    [case_sensitive] is not read for the definitions of symbols. *)
Record lex_item := mkItem { li_token : token; li_insensitive : bool; li_symbol : Z; li_unit : Z; li_weak : bool }.

(** lexer_stage.cpp 322-337: an ignored symbol that the grammar does not use ("bland") *)
Definition bland (used : Z -> bool) (i : lex_item) : bool := (li_unit i =? unit_ignore) && negb (used (li_symbol i)).

Section Stage.
  Context (expressions literals : list Z -> option (list Z)) (category : list Z -> option symbol_set)
    (defined : list Z -> list (bool * bool * token)) (used : Z -> bool).

  (** ndfa_regex.cpp 135-144, 177-200: [add_literal] and [add_regex] with a builder *)
  Definition add_at (fuel : nat) (b : builder (A := language_action)) (t : token) : option (builder (A := language_action)) :=
    match t with
    | Regex r => run lower_case upper_case expressions literals category defined fuel r (shift lower_case upper_case b [])
    | Literal l => Some (add_literal_at lower_case upper_case b l)
    end.

  (** lexer_stage.cpp 312-384: one definition.  The state is the builder for the bland symbols
      (with the automaton that all definitions share), [firstIgnore] and [ignoreSymbol].  The
      checks of the expressions only produce messages and are left out, as is the message for a
      definition without a unit (315-318). *)
  Definition stage_item (fuel : nat) (st : builder * bool * Z) (i : lex_item) : option (builder * bool * Z) :=
    let '(b, first, ignoreSymbol) := st in
    if li_unit i =? unit_null then Some st
    else if bland used i then
      let ignoreSymbol := if ignoreSymbol <? 0 then li_symbol i else ignoreSymbol in
      let b := if first : bool then b else begin_or lower_case upper_case b in
      let b := set_case (push b) (li_insensitive i) (li_insensitive i) in
      match add_at fuel b (li_token i) with
      | None => None
      | Some b => Some (pop lower_case upper_case b, false, ignoreSymbol)
      end
    else
      match add_token expressions literals category defined fuel (b_nfa b) false (li_insensitive i) 0 (li_token i) (mkLA (li_symbol i) (li_unit i) (li_weak i)) with
      | None => None
      | Some d => Some (with_nfa b d, first, ignoreSymbol)
      end.

  Fixpoint stage_items (fuel : nat) (st : builder * bool * Z) (items : list lex_item) : option (builder * bool * Z) :=
    match items with
    | [] => Some st
    | i :: items => match stage_item fuel st i with None => None | Some st => stage_items fuel st items end
    end.

  (** lexer_stage.cpp 290-405: the automaton for all definitions.  The map of lists of the lexer
      data is given as one list in the order of the loops. *)
  Definition stage_ndfa (fuel : nat) (items : list lex_item) : option (ndfa language_action) :=
    match stage_items fuel (push (builder_at ndfa_new false false 0), true, -1) items with
    | None => None
    | Some (b, first, ignoreSymbol) =>
        Some (if first then b_nfa b
              else let b := pop lower_case upper_case b in accept (b_nfa b) (b_cur b) (mkLA ignoreSymbol unit_ignore false))
    end.

  (** lexer_stage.cpp 407-432: the DFA.  None of the actions is eager. *)
  Definition stage_dfa (fuel dfuel : nat) (items : list lex_item) : option (ndfa language_action) :=
    match stage_ndfa fuel items with
    | None => None
    | Some d => match to_ndfa_with_unique_symbols d with
                | None => None
                | Some u => to_dfa (fun _ => false) dfuel u [0%nat]
                end
    end.
End Stage.

(** lexer_stage.cpp 518-549: the rest of the way, with the options disable-compact-dfa and
    disable-merged-dfa *)
Definition stage_reduce {A} (compact merge : bool) (fuel : nat) (d : ndfa A) : option (ndfa A) :=
  match (if compact then to_compact_dfa fuel d [0%nat] else Some d) with
  | None => None
  | Some d => if merge then to_ndfa_with_merged_symbols d else Some d
  end.

(** ** Messages *)

(** lexer_stage.cpp 441-464: the best action of a state, and the pairs (symbol, a symbol that
    replaces it) found on the way, latest first *)
Definition pick_action (st : language_action * list (Z * Z)) (a : language_action) : language_action * list (Z * Z) :=
  let '(highest, clashes) := st in
  if la_less highest a then (a, (la_symbol highest, la_symbol a) :: clashes)
  else (highest, (la_symbol a, la_symbol highest) :: clashes).
Definition pick_actions (actions : list language_action) : option (language_action * list (Z * Z)) :=
  match actions with
  | [] => None
  | a :: actions => Some (fold_left pick_action actions (a, []))
  end.

(** lexer_stage.cpp 434-469: the terminals that no state generates, and [clashes] *)
Definition stage_unused (terminals : nat) (d : ndfa language_action) : list Z * list (Z * list Z) :=
  fold_left (fun st q =>
    let '(unused, clashes) := st in
    match pick_actions (actions_for_state d q) with
    | None => st
    | Some (highest, found) =>
        (serase Z.ltb (la_symbol highest) unused,
         fold_left (fun m p => mset Z.ltb (fst p) (sins Z.ltb (snd p) (match mfind Z.ltb (fst p) m with Some s => s | None => [] end)) m) (rev found) clashes)
    end) (seq 0 (count_states d)) (map Z.of_nat (seq 0 terminals), []).

(** lexer_stage.cpp 471-503: the warnings, each with the symbols of its details *)
Definition stage_warnings (terminals : nat) (ignored : Z -> bool) (d : ndfa language_action) : list (Z * list Z) :=
  let '(unused, clashes) := stage_unused terminals d in
  map (fun t => (t, match mfind Z.ltb t clashes with Some s => s | None => [] end)) (filter (fun t => negb (ignored t)) unused).
