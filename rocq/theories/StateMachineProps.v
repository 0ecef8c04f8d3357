(** C14, C49: property theorems for state machines and generated lexer tables. *)
From Verif Require Import Base OrdMap BinSearch SymbolSetModel SymbolSetSpec SymbolSetProofs SymbolMapModel SymbolMapSpec DedupProofs.
From Verif Require Import NdfaModel NdfaSpec NdfaProofs ToDfaProofs SymbolTableModel SymbolTableSpec HardTableProofs.
From Verif Require Import StateMachineModel StateMachineSpec StateMachineProofs.
Local Open Scope Z_scope.

Definition run_flat rows := run flat_get rows.
Definition run_compact rows := run (fun row set => Some (compact_get row set)) rows.

(** C14: with a translator that finds the right set for the symbol, a machine with flat rows
    moves as the automaton does, without reading outside its rows, ... *)
Theorem C14_flat {A} (d : ndfa A) rows translate q c :
  ndfa_ok d -> disjoint_symbols d -> flat_machine d rows -> (q < count_states d)%nat ->
  lookup_exact (n_symbols d) c (translate c) ->
  exists r, run_flat rows translate (Z.of_nat q) c = Some r /\
            run_unsafe flat_get rows translate (Z.of_nat q) c = Some r /\ moves d q c r.
Proof. exact (C14_flat_lemma d rows translate q c). Qed.
Print Assumptions C14_flat.

(** ... and so does one with compact rows, in whatever way [std::sort] orders them. *)
Theorem C14_compact {A} (d : ndfa A) rows translate q c :
  ndfa_ok d -> disjoint_symbols d -> compact_machine d rows -> (q < count_states d)%nat ->
  lookup_exact (n_symbols d) c (translate c) ->
  exists r, run_compact rows translate (Z.of_nat q) c = Some r /\
            run_unsafe (fun row set => Some (compact_get row set)) rows translate (Z.of_nat q) c = Some r /\ moves d q c r.
Proof. exact (C14_compact_lemma d rows translate q c). Qed.
Print Assumptions C14_compact.

(** The two agree on every state number, valid or not. *)
Theorem C14_agree {A} (d : ndfa A) rowsF rowsC translate q c :
  ndfa_ok d -> disjoint_symbols d -> deterministic d -> flat_machine d rowsF -> compact_machine d rowsC ->
  lookup_exact (n_symbols d) c (translate c) ->
  run_flat rowsF translate q c = run_compact rowsC translate q c.
Proof. intros OK DJ DET. exact (agree_lemma d OK DJ DET rowsF rowsC translate q c). Qed.
Print Assumptions C14_agree.

(** An invalid state is rejected. *)
Theorem C14_invalid_state {A} (d : ndfa A) rowsF rowsC translate q c :
  flat_machine d rowsF -> compact_machine d rowsC -> q < 0 \/ Z.of_nat (count_states d) <= q ->
  run_flat rowsF translate q c = Some (-1) /\ run_compact rowsC translate q c = Some (-1).
Proof. exact (C14_invalid_lemma d rowsF rowsC translate q c). Qed.
Print Assumptions C14_invalid_state.

(** Both kinds of rows can be built for every automaton. *)
Theorem C14_exists {A} (d : ndfa A) : ndfa_ok d -> (exists rows, flat_machine d rows) /\ (exists rows, compact_machine d rows).
Proof. intros OK. exact (conj (flat_machine_exists d OK) (ex_intro _ _ (compact_machine_exists d OK))). Qed.
Print Assumptions C14_exists.

(** C14 with the translator of the library, for whole words: an action is accepted by the
    automaton exactly when the machine stops in a state with that action.  Missing from the
    full property: what is missing from C05. *)
Theorem C14_words_partial {A} (d : ndfa A) rowsF rowsC k q w a :
  ndfa_ok d -> disjoint_symbols d -> deterministic d -> flat_machine d rowsF -> compact_machine d rowsC ->
  no_block_after_range (n_symbols d) -> fits k (n_symbols d) -> (forall c, In c w -> 0 <= c < kind_limit k) ->
  (q < count_states d)%nat ->
  let translate := set_for_symbol k (translator k (n_symbols d)) in
  (accepts d q w a <-> exists r, run_word (run_flat rowsF translate) (Z.of_nat q) w = Some (Z.of_nat r) /\ In a (actions_for_state d r)) /\
  (accepts d q w a <-> exists r, run_word (run_compact rowsC translate) (Z.of_nat q) w = Some (Z.of_nat r) /\ In a (actions_for_state d r)).
Proof. exact (C14_words_lemma d rowsF rowsC k q w a). Qed.
Print Assumptions C14_words_partial.

(** With the sets excluded in C05 the machine gets stuck: *)
Theorem C14_words_refuted : exists (d : ndfa Z) rows,
  ndfa_ok d /\ disjoint_symbols d /\ deterministic d /\ compact_machine d rows /\
  accepts d 0 [300] 1 /\
  run_compact rows (set_for_symbol Kwchar (translator Kwchar (n_symbols d))) 0 300 = Some (-1).
Proof. exact C14_refuted_lemma. Qed.
Print Assumptions C14_words_refuted.

(** An automaton with two classes of characters: *)
Definition C14_ex : ndfa Z :=
  build [OpState; OpState; OpTrans 0 [mkR 97 123] 1; OpTrans 1 [mkR 48 58] 1; OpTrans 1 [mkR 97 123] 2; OpAccept 1 1; OpAccept 2 2].
Example C14_nontrivial :
  ndfa_ok C14_ex /\ disjoint_symbols C14_ex /\ deterministic C14_ex /\
  (exists rowsF, flat_machine C14_ex rowsF /\
    run_word (run_flat rowsF (set_for_symbol Kchar (translator Kchar (n_symbols C14_ex)))) 0 [98; 50; 50; 99] = Some 2 /\
    run_word (run_flat rowsF (set_for_symbol Kchar (translator Kchar (n_symbols C14_ex)))) 0 [98; 50; 33] = Some (-1)) /\
  (exists rowsC, compact_machine C14_ex rowsC /\
    run_word (run_compact rowsC (set_for_symbol Kchar (translator Kchar (n_symbols C14_ex)))) 0 [98; 50; 50; 99] = Some 2 /\
    run_word (run_compact rowsC (set_for_symbol Kchar (translator Kchar (n_symbols C14_ex)))) 0 [98; 50; 33] = Some (-1)).
Proof.
  assert (OK : ndfa_ok C14_ex) by (apply build_ok_lemma; repeat (apply Forall_cons; [try exact I; apply normal_b_sound; vm_compute; reflexivity|]); apply Forall_nil).
  assert (DJ : disjoint_symbols C14_ex) by (apply verify_no_overlap_spec; [exact OK|vm_compute; reflexivity]).
  split; [exact OK|]. split; [exact DJ|]. split; [|split].
  - apply det_of; [exact OK|exact DJ|vm_compute; reflexivity].
  - exists [[1; -1]; [2; 1]; [-1; -1]]. split; [|split; vm_compute; reflexivity]. split; [reflexivity|].
    intros [|[|[|q]]] row E; inversion E; vm_compute; try reflexivity. destruct q; discriminate.
  - exists (n_states C14_ex). split; [apply compact_machine_exists; exact OK|split; vm_compute; reflexivity].
Qed.

(** C49 is false as stated, and not only for special automata: in a state with no later
    state that has transitions, every lookup of a symbol that is in some set reads outside
    the array of row pointers. *)
Theorem C49_generated_tables_refuted {A} (d : ndfa A) translate q c :
  (forall q', (q < q')%nat -> get_state d q' = []) -> translate c <> -1 ->
  tables_run_unsafe (gen_tables d) translate (Z.of_nat q) c = None.
Proof. exact (gen_outside_lemma d translate q c). Qed.
Print Assumptions C49_generated_tables_refuted.

(** C49, the part that holds: in a state that is followed by a state with transitions the
    generated tables move as the automaton does.  Missing from the full property: the last
    state with transitions and all states after it. *)
Theorem C49_generated_tables_partial {A} (d : ndfa A) translate q c :
  ndfa_ok d -> disjoint_symbols d -> (exists q', (q < q')%nat /\ get_state d q' <> []) ->
  lookup_exact (n_symbols d) c (translate c) ->
  exists r, tables_run_unsafe (gen_tables d) translate (Z.of_nat q) c = Some r /\ moves d q c r.
Proof. intros OK. exact (gen_lookup_lemma d OK translate q c). Qed.
Print Assumptions C49_generated_tables_partial.

Example C49_nontrivial :
  gen_tables C14_ex = ([(0, 1%nat); (0, 2%nat); (1, 1%nat)], [0; 1]%nat) /\
  let t := set_for_symbol Kchar (translator Kchar (n_symbols C14_ex)) in
  tables_run_unsafe (gen_tables C14_ex) t 0 98 = Some 1 /\ tables_run_unsafe (gen_tables C14_ex) t 0 50 = Some (-1) /\
  tables_run_unsafe (gen_tables C14_ex) t 1 98 = None.
Proof. vm_compute. auto. Qed.
