(** C07, C08: property theorems for NFA construction, unique symbols and determinisation. *)
From Verif Require Import Base OrdMap SymbolSetModel SymbolSetSpec SymbolSetProofs SymbolMapModel SymbolMapSpec SymbolMapProofs DedupProofs.
From Verif Require Import NdfaModel NdfaSpec NdfaProofs ToDfaProofs.
Local Open Scope Z_scope.

(** Every automaton built through the API is well-formed, so the theorems below apply. *)
Theorem C07_build_ok {A} (ops : list (@op A)) : Forall op_valid ops -> ndfa_ok (build ops).
Proof. exact (build_ok_lemma ops). Qed.
Print Assumptions C07_build_ok.

(** C07: whenever de-duplication yields a partition, the new automaton has disjoint symbol
    sets and, on every word, reaches the same states with the same accept actions. *)
Theorem C07_unique_symbols {A} (d : ndfa A) m :
  ndfa_ok d -> deduplicate (n_symbols d) = Some m -> is_partition (n_symbols d) m ->
  exists d', to_ndfa_with_unique_symbols d = Some d' /\ disjoint_symbols d' /\
    count_states d' = count_states d /\
    (forall q, actions_for_state d' q = actions_for_state d q) /\
    (forall q w q', path d' q w q' <-> path d q w q').
Proof. exact (unique_partition_lemma d m). Qed.
Print Assumptions C07_unique_symbols.

(** C07 with the condition of C04 in place of its conclusion; the result is again
    well-formed and passes the code's own check. *)
Theorem C07_unique_symbols_compatible {A} (d : ndfa A) : ndfa_ok d -> all_compatible (n_symbols d) ->
  exists d', to_ndfa_with_unique_symbols d = Some d' /\
    ndfa_ok d' /\ disjoint_symbols d' /\ verify_no_symbol_overlap d' = true /\
    count_states d' = count_states d /\
    (forall q, actions_for_state d' q = actions_for_state d q) /\
    (forall q w q', path d' q w q' <-> path d q w q').
Proof. exact (unique_lemma d). Qed.
Print Assumptions C07_unique_symbols_compatible.

(** The code's check for overlapping symbol sets is exact. *)
Theorem C07_verify_no_symbol_overlap {A} (d : ndfa A) :
  ndfa_ok d -> verify_no_symbol_overlap d = true <-> disjoint_symbols d.
Proof. exact (verify_no_overlap_spec d). Qed.
Print Assumptions C07_verify_no_symbol_overlap.

(** An automaton for  [a-z]+ | [a-f]([x-~] )* with silent moves, overlapping sets and
    accept actions (symbol, eager). *)
Definition ex_ops : list (@op (Z * bool)) :=
  [OpState; OpState; OpState;
   OpTrans 0 [mkR 97 123] 1; OpTrans 1 [] 0; OpTrans 0 [mkR 97 103] 2; OpTrans 2 [mkR 120 127] 3; OpTrans 3 [] 2;
   OpAccept 1 (1, false); OpAccept 2 (2, false); OpAccept 3 (3, false)].
Definition ex_d : ndfa (Z * bool) := build ex_ops.

Lemma ex_valid : Forall op_valid ex_ops.
Proof. unfold ex_ops. repeat (apply Forall_cons; [try exact I; apply normal_b_sound; vm_compute; reflexivity|]). apply Forall_nil. Qed.

Example C07_nontrivial :
  ndfa_ok ex_d /\ all_compatible (n_symbols ex_d) /\ verify_no_symbol_overlap ex_d = false /\
  option_map (fun d => (n_states d, sm_sets (n_symbols d))) (to_ndfa_with_unique_symbols ex_d) =
  Some ([[(1, 1%nat); (2, 1%nat); (2, 2%nat); (3, 1%nat)]; [(0, 0%nat)]; [(3, 3%nat); (4, 3%nat)]; [(0, 2%nat)]],
        [[]; [mkR 103 120]; [mkR 97 103]; [mkR 120 123]; [mkR 123 127]]).
Proof.
  split; [apply build_ok_lemma; exact ex_valid|].
  split; [apply all_compatible_b_sound; vm_compute; reflexivity|]. split; vm_compute; reflexivity.
Qed.

(** Without the partition the property fails: with the sets [ ], [0-9] and [^q] (q the
    quote) on three transitions, the word a is no longer read. *)
Theorem C07_unique_symbols_no_partition_refuted :
  exists (ops : list (@op Z)) d', Forall op_valid ops /\ to_ndfa_with_unique_symbols (build ops) = Some d' /\
    path (build ops) 0 [97] 1 /\ ~ path d' 0 [97] 1.
Proof. exact unique_no_partition_lemma. Qed.
Print Assumptions C07_unique_symbols_no_partition_refuted.

(** C08: the subset construction terminates ... *)
Theorem C08_to_dfa_terminates {A} (eager : A -> bool) (d : ndfa A) (init : list nat) :
  ndfa_ok d -> (forall q, In q init -> (q < count_states d)%nat) ->
  exists fuel r, to_dfa eager fuel d init = Some r.
Proof. exact (to_dfa_terminates eager d init). Qed.
Print Assumptions C08_to_dfa_terminates.

(** ... and its result is a DFA: state k of the result, started on any word, accepts exactly
    the actions that the k-th initial state accepts in the original, except that no word is
    accepted beyond a proper prefix with an eager action. *)
Theorem C08_to_dfa {A} (eager : A -> bool) (d : ndfa A) (init : list nat) fuel r :
  ndfa_ok d -> disjoint_symbols d -> (forall q, In q init -> (q < count_states d)%nat) ->
  to_dfa eager fuel d init = Some r ->
  ndfa_ok r /\ verify_is_dfa r = true /\ deterministic r /\
  n_symbols r = (match init with [] => sm_empty | _ => n_symbols d end) /\
  (length init <= count_states r)%nat /\
  forall k q0, nth_error init k = Some q0 -> forall w a,
    accepts r k w a <-> accepts d q0 w a /\ not_cut eager d q0 w.
Proof. exact (to_dfa_correct eager d init fuel r). Qed.
Print Assumptions C08_to_dfa.

(** The usual pipeline: any automaton built through the API, made unique, made deterministic. *)
Theorem C08_build_unique_dfa {A} (eager : A -> bool) (ops : list (@op A)) :
  Forall op_valid ops -> all_compatible (n_symbols (build ops)) ->
  exists u fuel r, to_ndfa_with_unique_symbols (build ops) = Some u /\ to_dfa eager fuel u [0%nat] = Some r /\
    verify_is_dfa r = true /\ deterministic r /\
    forall w a, accepts r 0 w a <-> accepts (build ops) 0 w a /\ not_cut eager (build ops) 0 w.
Proof. exact (build_unique_dfa_lemma eager ops). Qed.
Print Assumptions C08_build_unique_dfa.

Example C08_nontrivial :
  Forall op_valid ex_ops /\ all_compatible (n_symbols (build ex_ops)) /\
  match to_ndfa_with_unique_symbols ex_d with
  | Some u => option_map (fun r => (n_states r, n_accept r)) (to_dfa snd 10 u [0%nat])
  | None => None
  end = Some ([[(1, 1%nat); (2, 2%nat); (3, 1%nat)];
               [(1, 1%nat); (2, 2%nat); (3, 1%nat)];
               [(1, 1%nat); (2, 2%nat); (3, 3%nat); (4, 4%nat)];
               [(1, 1%nat); (2, 2%nat); (3, 3%nat); (4, 4%nat)];
               [(3, 4%nat); (4, 4%nat)]],
              [(1%nat, [(1, false)]); (2%nat, [(1, false); (2, false)]); (3%nat, [(1, false); (2, false); (3, false)]);
               (4%nat, [(2, false); (3, false)])]).
Proof.
  split; [exact ex_valid|].
  split; [apply all_compatible_b_sound; vm_compute; reflexivity|]. vm_compute. reflexivity.
Qed.

(** An eager accept cuts longer words: a(b)? with a eager. *)
Example C08_eager_nontrivial :
  let d := build [OpState; OpState; OpTrans 0 [mkR 97 98] 1; OpTrans 1 [mkR 98 99] 2; OpAccept 1 (1, true); OpAccept 2 (2, false)] in
  accepts d 0 [97; 98] (2, false) /\ verify_no_symbol_overlap d = true /\
  option_map (fun r => (n_states r, n_accept r)) (to_dfa snd 10 d [0%nat]) =
  Some ([[(0, 1%nat)]; []], [(1%nat, [(1, true)])]).
Proof.
  cbv zeta. split; [|split; vm_compute; reflexivity]. exists 2%nat. split; [|vm_compute; auto].
  apply (path_sym _ 0 0 1); [vm_compute; auto|vm_compute; reflexivity|].
  apply (path_sym _ 1 1 2); [vm_compute; auto|vm_compute; reflexivity|constructor].
Qed.
