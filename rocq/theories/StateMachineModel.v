(** Model of TameParse/Dfa/state_machine.h and of the lexer tables written by
    Compiler/output_stage.cpp and Compiler/OutputStages/cplusplus.cpp.
    No proofs in this file. *)
From Verif Require Import Base OrdMap BinSearch SymbolSetModel SymbolMapModel NdfaModel SymbolTableModel.
Local Open Scope Z_scope.

(** ** Flat rows *)

(** state_machine.h 67-79.  [None]: a write outside the row. *)
Definition flat_write (row : option (list Z)) (t : transition) : option (list Z) :=
  match row with
  | None => None
  | Some row => if (fst t <? 0) || (Z.of_nat (length row) <=? fst t) then None
                else Some (set_nth (Z.to_nat (fst t)) (Z.of_nat (snd t)) row)
  end.
Definition flat_fill (maxSet : Z) (st : list transition) : option (list Z) :=
  fold_left flat_write st (Some (repeat (-1) (Z.to_nat maxSet))).

(** state_machine.h 88-90.  [None]: a read outside the row. *)
Definition flat_get (row : list Z) (symbolSet : Z) : option Z :=
  if symbolSet <? 0 then None else nth_error row (Z.to_nat symbolSet).

(** ** Compact rows *)

(** state_machine.h 137-153.  [std::sort] may order equal symbol sets in any way, so the row
    is any sorted rearrangement of the state's transitions. *)
Definition compact_fill (st row : list transition) : Prop :=
  (forall t, In t row <-> In t st) /\ length row = length st /\
  StronglySorted (fun a b => fst a <= fst b) row.

(** state_machine.h 163-176, with [std::lower_bound] *)
Definition compact_get (row : list transition) (symbolSet : Z) : Z :=
  let p := lower_bound_pos (fun i => match nth_error row i with Some t => fst t <? symbolSet | None => false end) (length row) in
  match nth_error row p with
  | None => -1
  | Some t => if negb (fst t =? symbolSet) then -1 else Z.of_nat (snd t)
  end.

(** ** State machines *)

(** state_machine.h 218-233: the rows, one for each state, and the translator *)
Definition flat_machine {A} (d : ndfa A) (rows : list (list Z)) : Prop :=
  length rows = count_states d /\
  forall q row, nth_error rows q = Some row -> flat_fill (sm_count (n_symbols d)) (get_state d q) = Some row.
Definition compact_machine {A} (d : ndfa A) (rows : list (list transition)) : Prop :=
  length rows = count_states d /\
  forall q row, nth_error rows q = Some row -> compact_fill (get_state d q) row.

(** state_machine.h 265-288.  [get] is [operator[]] of the rows, [translate] the
    translator's [set_for_symbol].  [None]: a read outside the tables. *)
Section Run.
  Context {row : Type} (get : row -> Z -> option Z) (rows : list row) (translate : Z -> Z).

  Definition run_unsafe (state symbol : Z) : option Z :=
    let set := translate symbol in
    if set =? -1 then Some (-1)
    else if state <? 0 then None
    else match nth_error rows (Z.to_nat state) with
         | None => None
         | Some r => get r set
         end.

  Definition run (state symbol : Z) : option Z :=
    if (state <? 0) || (Z.of_nat (length rows) <=? state) then Some (-1) else run_unsafe state symbol.
End Run.

(** ** Generated tables *)

(** output_stage.cpp 192-207: the transitions in order of state *)
Definition lexer_transitions {A} (d : ndfa A) : list (nat * transition) :=
  flat_map (fun q => map (fun t => (q, t)) (get_state d q)) (seq 0 (count_states d)).

(** cplusplus.cpp 480-515: the entries and the offset of each state.  [stateId] is -1 before
    the first transition; the entry position is the number of entries so far. *)
Fixpoint pad (n : nat) (entryPos : nat) (offs : list nat) : list nat :=
  match n with O => offs | S n => pad n entryPos (offs ++ [entryPos]) end.
Definition gen_step (acc : list transition * list nat * option nat) (x : nat * transition) :=
  let '(entries, offs, stateId) := acc in
  let '(q, t) := x in
  let changed := match stateId with Some s => negb (Nat.eqb s q) | None => true end in
  let offs' := if changed then pad (S q - length offs) (length entries) offs else offs in
  (entries ++ [t], offs', Some q).
Definition gen_entries_offsets (trans : list (nat * transition)) : list transition * list nat :=
  let '(entries, offs, _) := fold_left gen_step trans ([], [0%nat], None) in
  (* 523: the position of the end of the array *)
  (entries, offs ++ [length entries]).
(** 526-541: the rows written are all but the last of the offsets *)
Definition gen_tables {A} (d : ndfa A) : list transition * list nat :=
  let '(entries, offs) := gen_entries_offsets (lexer_transitions d) in (entries, removelast offs).

(** state_machine.h 327-347.  [None]: a read outside the array of row pointers. *)
Definition tables_get (tables : list transition * list nat) (state symbolSet : Z) : option Z :=
  let '(entries, offs) := tables in
  if state <? 0 then None
  else match nth_error offs (Z.to_nat state), nth_error offs (Z.to_nat (state + 1)) with
       | Some s, Some e => if Nat.eqb e s then Some (-1) else Some (compact_get (firstn (e - s) (skipn s entries)) symbolSet)
       | _, _ => None
       end.

(** state_machine.h 355-370 *)
Definition tables_run_unsafe (tables : list transition * list nat) (translate : Z -> Z) (state symbol : Z) : option Z :=
  let set := translate symbol in
  if set =? -1 then Some (-1) else tables_get tables state set.
