(** Model of the class dfa::lexer (TameParse/Dfa/lexer.h 36-103, lexer.cpp 31-167) and of the
    character lexer (TameParse/Dfa/character_lexer.cpp 32-75).  No proofs in this file. *)
From Verif Require Import Base OrdMap SymbolSetModel SymbolMapModel NdfaModel SymbolTableModel StateMachineModel TextModel LexerModel RegexModel.
Local Open Scope Z_scope.

(** basic_lexer.h 150-190: a compiled lexer, as the step of its state machine and its accept
    table *)
Record compiled := mkCompiled { cp_step : Z -> Z -> option Z; cp_accept : list Z }.

(** lexer.h 38-45.  [m_OwnsLexer] only decides about releasing memory and is left out. *)
Record lexer := mkLexer { lo_ndfa : option (ndfa Z); lo_lexer : option compiled }.

(** What a client asks of a lexer, and what it is told *)
Inductive call := AddSymbol (regex : list Z) (symbol : Z) | Compile (compact : bool) | Stream (text : list Z) | Verify.
Inductive answer := Done | Lexemes (ls : list lexeme) | NoStream | Verified (ok : bool).

(** The rows of a flat table, one for each state (state_machine.h 218-233).  [None]: a write
    outside a row. *)
Fixpoint flat_rows (maxSet : Z) (states : list (list transition)) : option (list (list Z)) :=
  match states with
  | [] => Some []
  | st :: states => match flat_fill maxSet st, flat_rows maxSet states with
                    | Some row, Some rows => Some (row :: rows)
                    | _, _ => None
                    end
  end.

Section Class.
  (** The names that the expressions may use (those of the [ndfa_regex] object), the Unicode
      categories, [std::sort] on the transitions of a state, and the fuel for expressions and for
      the subset construction. *)
  Context (expressions literals : list Z -> option (list Z)) (category : list Z -> option symbol_set)
    (defined : list Z -> list (bool * bool * token)) (sort : list transition -> list transition) (fuel dfuel : nat).

  (** lexer.cpp 32-36, with the constructor of [ndfa] that makes state 0 *)
  Definition lexer_new : lexer := mkLexer (Some ndfa_new) None.

  (** basic_lexer.h 350-370: [dfa_lexer] over [wchar_t], with the table the flag asks for *)
  Definition dfa_lexer (compact : bool) (d : ndfa Z) : option compiled :=
    let table := accept_table action_less (fun s => s) d in
    if compact then Some (mkCompiled (compact_run Kwchar d (map sort (n_states d))) table)
    else match flat_rows (sm_count (n_symbols d)) (n_states d) with
         | None => None
         | Some rows => Some (mkCompiled (flat_run Kwchar d rows) table)
         end.

  (** lexer.cpp 51-57: the constructor for a finished DFA *)
  Definition lexer_of_dfa (d : ndfa Z) : option lexer :=
    match dfa_lexer false d with None => None | Some c => Some (mkLexer None (Some c)) end.

  (** lexer.cpp 59-70: the constructor for another lexer, which may be NULL *)
  Definition lexer_of (c : option compiled) : lexer :=
    match c with None => mkLexer (Some ndfa_new) None | Some c => mkLexer None (Some c) end.

  (** lexer.cpp 101-107.  Expressions are read with surrogates and case counts
      (ndfa_regex.cpp 38-42).  None of the actions is eager. *)
  Definition add_symbol (l : lexer) (regex : list Z) (symbol : Z) : option lexer :=
    match lo_ndfa l with
    | None => Some l
    | Some d => match add_token expressions literals category defined fuel d true false 0 (Regex regex) symbol with
                | None => None
                | Some d => Some (mkLexer (Some d) (lo_lexer l))
                end
    end.

  (** lexer.cpp 110-131 *)
  Definition compile (l : lexer) (compact : bool) : option lexer :=
    match lo_lexer l, lo_ndfa l with
    | Some _, _ => Some l
    | None, None => Some l
    | None, Some d =>
        match to_ndfa_with_unique_symbols d with
        | None => None
        | Some symbols => match to_dfa (fun _ => false) dfuel symbols [0%nat] with
                          | None => None
                          | Some r => match dfa_lexer compact r with
                                      | None => None
                                      | Some c => Some (mkLexer None (Some c))
                                      end
                          end
        end
    end.

  (** lexer.cpp 134-161 *)
  Definition verify (l : lexer) : option bool :=
    match lo_lexer l, lo_ndfa l with
    | Some _, _ => Some false
    | None, None => Some false
    | None, Some d =>
        match to_ndfa_with_unique_symbols d with
        | None => None
        | Some symbols => match to_dfa (fun _ => false) dfuel symbols [0%nat] with
                          | None => None
                          | Some r => Some (verify_no_symbol_overlap symbols && verify_no_symbol_overlap r && verify_is_dfa r)
                          end
        end
    end.

  (** lexer.cpp 87-98, and reading the stream to its end *)
  Definition create_stream (l : lexer) (text : list Z) : option (lexer * answer) :=
    match (match lo_lexer l with Some _ => Some l | None => compile l false end) with
    | None => None
    | Some l => match lo_lexer l with
                | None => Some (l, NoStream)
                | Some c => match read_all (cp_step c) (accept_at (cp_accept c)) 0 (S (length text)) (fun _ => None) (stream_new 0 text) [] with
                            | None => None
                            | Some (ls, _) => Some (l, Lexemes ls)
                            end
                end
    end.

  Definition do_call (l : lexer) (c : call) : option (lexer * answer) :=
    match c with
    | AddSymbol regex symbol => match add_symbol l regex symbol with None => None | Some l => Some (l, Done) end
    | Compile compact => match compile l compact with None => None | Some l => Some (l, Done) end
    | Stream text => create_stream l text
    | Verify => match verify l with None => None | Some ok => Some (l, Verified ok) end
    end.

  (** A history of calls.  [None]: out of fuel, or an access outside a table. *)
  Fixpoint calls_of (l : lexer) (cs : list call) : option (list answer) :=
    match cs with
    | [] => Some []
    | c :: cs => match do_call l c with
                 | None => None
                 | Some (l, a) => match calls_of l cs with None => None | Some answers => Some (a :: answers) end
                 end
    end.
End Class.

(** ** The character lexer *)

(** character_lexer.cpp 42-58: one lexeme, with the rest of the stream and the position behind
    it.  The stream says [end_of_input] from its end on. *)
Definition next_char (t : tracker) (input : list Z) : option (lexeme * tracker * list Z) :=
  match input with
  | [] => None
  | next :: input => if next =? end_of_input then None else Some (mkLexeme [next] (fst t) next, update_symbol t next, input)
  end.

(** Reading until NULL *)
Fixpoint char_lexemes (t : tracker) (input : list Z) : list lexeme :=
  match input with
  | [] => []
  | _ :: rest => match next_char t input with
                 | None => []
                 | Some (l, t, _) => l :: char_lexemes t rest
                 end
  end.
