(** Model of the parser tables that are written into generated source (Compiler/OutputStages/cplusplus.cpp
    600-837), and of the object of class parser_tables that the generated source makes from its arrays
    (Lr/parser_tables.cpp 241-255, Lr/parser_tables.h 159-225). *)
From Verif Require Import Base BinSearch ActionModel TableModel.
Local Open Scope Z_scope.

(** An initialiser of parser_tables::action: its type, next state and symbol, as numbers (line 632) *)
Definition raw : Type := Z * Z * Z.
Definition raw_of (e : entry) : raw := (type_number (e_type e), e_next e, e_symbol e).
Definition raw_symbol (r : raw) : Z := snd r.

(** The arrays the generated source defines, and the numbers in its call of the constructor.  The text of
    the arrays (commas, comments, line breaks and the digits of the numbers) is not modelled. *)
Record emitted := mkEmitted {
  em_terminal_data : list raw;            (* s_TerminalActions_data *)
  em_terminal_rows : list nat;            (* s_TerminalActions: offsets into the data *)
  em_nonterminal_data : list raw;         (* s_NonterminalActions_data *)
  em_nonterminal_rows : list nat;         (* s_NonterminalActions *)
  em_counts : list (Z * Z);               (* s_ActionCounts *)
  em_guards : list Z;                     (* s_EndGuardStates *)
  em_rules : list (Z * Z * Z);            (* s_ReduceRules *)
  em_weak : list (Z * Z);                 (* s_WeakToStrong *)
  em_states : Z; em_eoi : Z; em_eog : Z; em_num_guards : Z; em_num_rules : Z; em_num_weak : Z }.

(** cplusplus.cpp 601-640: the actions of all states, one after another *)
Definition write_data (rows : list (list entry)) : list raw := flat_map (map raw_of) rows.
(** cplusplus.cpp 642-673: where the actions of each state begin *)
Fixpoint write_rows (pos : nat) (rows : list (list entry)) : list nat :=
  match rows with
  | [] => []
  | r :: rows => pos :: write_rows (pos + length r) rows
  end.
(** cplusplus.cpp 676-689 and 721-744: the counts of a state (m_Counts, parser_tables.cpp 166-174) *)
Definition write_counts (t : tables) : list (Z * Z) :=
  map (fun q => (Z.of_nat (length (nth q (t_terminals t) [])), Z.of_nat (length (nth q (t_nonterminals t) []))))
      (seq 0 (length (t_terminals t))).
(** cplusplus.cpp 773-797 *)
Definition write_rule (r : reduce_rule) : Z * Z * Z := (rr_identifier r, rr_rule r, rr_length r).
(** cplusplus.cpp 699-837 *)
Definition emit (t : tables) : emitted :=
  mkEmitted (write_data (t_terminals t)) (write_rows 0 (t_terminals t))
            (write_data (t_nonterminals t)) (write_rows 0 (t_nonterminals t))
            (write_counts t) (t_guards t) (map write_rule (t_rules t)) (t_weak t)
            (Z.of_nat (length (t_terminals t))) (t_eoi t) (t_eog t)
            (Z.of_nat (length (t_guards t))) (Z.of_nat (length (t_rules t))) (Z.of_nat (length (t_weak t))).

(** ** The object made from the arrays.  [None]: a read outside an array *)
Definition at_index {A} (l : list A) (i : Z) : option A := if i <? 0 then None else nth_error l (Z.to_nat i).
(** The elements from a pointer into an array on, as many as a count says *)
Definition slice {A} (l : list A) (from : nat) (count : Z) : option (list A) :=
  if (0 <=? count) && (Z.of_nat from + count <=? Z.of_nat (length l)) then Some (firstn (Z.to_nat count) (skipn from l)) else None.
Definition no_raw : raw := (0, 0, 0).
(** parser_tables.h 159-170 *)
Definition raw_find (symbol : Z) (l : list raw) : list raw :=
  skipn (lower_bound_pos (fun i => raw_symbol (nth i l no_raw) <? symbol) (length l)) l.
(** parser_tables.h 176-196: the entries from the one found to the last of the state *)
Definition object_terminal (em : emitted) (q symbol : Z) : option (list raw) :=
  match at_index (em_terminal_rows em) q, at_index (em_counts em) q with
  | Some from, Some c => option_map (raw_find symbol) (slice (em_terminal_data em) from (fst c))
  | _, _ => None
  end.
Definition object_nonterminal (em : emitted) (q symbol : Z) : option (list raw) :=
  match at_index (em_nonterminal_rows em) q, at_index (em_counts em) q with
  | Some from, Some c => option_map (raw_find symbol) (slice (em_nonterminal_data em) from (snd c))
  | _, _ => None
  end.
(** parser_tables.h 204-207 *)
Definition object_guard (em : emitted) (q : Z) : option bool :=
  match slice (em_guards em) 0 (em_num_guards em) with
  | Some guards =>
      let p := lower_bound_pos (fun i => nth i guards 0 <? q) (length guards) in
      Some (match nth_error guards p with Some g => negb (q <? g) | None => false end)
  | None => None
  end.
(** parser_tables.h 209-225 *)
Definition object_strong (em : emitted) (weak : Z) : option Z :=
  if em_num_weak em =? 0 then Some weak
  else match slice (em_weak em) 0 (em_num_weak em) with
       | Some pairs => Some (match find (fun p => fst p =? weak) pairs with Some p => snd p | None => weak end)
       | None => None
       end.
(** parser_tables.h 174 *)
Definition object_rule (em : emitted) (n : Z) : option (Z * Z * Z) := at_index (em_rules em) n.
