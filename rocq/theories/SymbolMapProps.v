(** C03, C04: property theorems for symbol maps and their deduplication. *)
From Verif Require Import Base OrdMap SymbolSetModel SymbolSetSpec SymbolMapModel SymbolMapSpec.
From Verif Require Import SymbolMapProofs DedupProofs.
Local Open Scope Z_scope.

(** C03: for any history of requests, identifiers are dense, assigned in order of first
    request, equal exactly for equal sets, and both directions of the lookup agree. *)
Theorem C03_symbol_map_ids (reqs : list symbol_set) :
  length (ids_of reqs) = length reqs /\
  (forall k s i, nth_error reqs k = Some s -> nth_error (ids_of reqs) k = Some i ->
     sm_get (sm_of reqs) i = s /\ sm_find (sm_of reqs) s = i /\
     0 <= i < sm_count (sm_of reqs)) /\
  (forall k k' s s' i i',
     nth_error reqs k = Some s -> nth_error (ids_of reqs) k = Some i ->
     nth_error reqs k' = Some s' -> nth_error (ids_of reqs) k' = Some i' ->
     (i = i' <-> s = s')) /\
  (forall s, ~ In s reqs -> sm_find (sm_of reqs) s = -1) /\
  (forall i, ~ (0 <= i < sm_count (sm_of reqs)) -> sm_get (sm_of reqs) i = []) /\
  (forall i, 0 <= i < sm_count (sm_of reqs) ->
     nth_error (firsts reqs) (Z.to_nat i) = Some (sm_get (sm_of reqs) i)) /\
  sm_count (sm_of reqs) = Z.of_nat (length (firsts reqs)).
Proof. exact (symbol_map_ids_lemma reqs). Qed.
Print Assumptions C03_symbol_map_ids.

Example C03_nontrivial :
  ids_of [[mkR 5 7]; [mkR 1 3; mkR 9 10]; [mkR 5 7]; []; [mkR 1 3]] = [0; 1; 0; 2; 3].
Proof. vm_compute. reflexivity. Qed.

(** C03: [has_duplicates] reports exactly the maps with a symbol in two sets. *)
Theorem C03_has_duplicates (reqs : list symbol_set) : Forall normal reqs ->
  sm_has_duplicates (sm_of reqs) = true <->
  exists i j x, i <> j /\ contains (sm_get (sm_of reqs) i) x = true /\
                contains (sm_get (sm_of reqs) j) x = true.
Proof. exact (has_duplicates_lemma reqs). Qed.
Print Assumptions C03_has_duplicates.

Example C03_has_duplicates_nontrivial :
  sm_has_duplicates (sm_of [[mkR 1 4]; [mkR 3 6; mkR 8 9]]) = true /\
  sm_has_duplicates (sm_of [[mkR 1 4]; [mkR 4 6; mkR 8 9]]) = false.
Proof. vm_compute. auto. Qed.

(** C04 is false in general: with the sets [ ], [0-9] and [^q] (q the quote) the symbol 'a' is lost,
    '(' becomes a digit, and the result has overlapping sets. *)
Theorem C04_deduplicate_refuted :
  exists reqs new, Forall normal reqs /\ deduplicate (sm_of reqs) = Some new /\
    contains (sm_get (sm_of reqs) 2) 97 = true /\
    (forall n, contains (sm_get (rm_map new) n) 97 = false) /\
    contains (sm_get (sm_of reqs) 1) 40 = false /\
    (exists n, In n (rm_new_symbols new 1) /\ contains (sm_get (rm_map new) n) 40 = true) /\
    sm_has_duplicates (rm_map new) = true /\
    ~ is_partition (sm_of reqs) new.
Proof. exact dedup_lost_lemma. Qed.
Print Assumptions C04_deduplicate_refuted.

(** C04, the part that holds.  Missing from the full property: maps in which a range
    meets symbols visited before, ends in a gap between them, and others lie beyond. *)
Theorem C04_deduplicate_partial (reqs : list symbol_set) :
  Forall normal reqs -> all_compatible (sm_of reqs) ->
  exists new, deduplicate (sm_of reqs) = Some new /\ is_partition (sm_of reqs) new /\
              sm_has_duplicates (rm_map new) = false.
Proof. exact (deduplicate_lemma reqs). Qed.
Print Assumptions C04_deduplicate_partial.

(** C04 for maps of single ranges: no further condition. *)
Theorem C04_deduplicate_single_ranges_partial (reqs : list symbol_set) :
  Forall normal reqs -> Forall (fun s => (length s <= 1)%nat) reqs ->
  exists new, deduplicate (sm_of reqs) = Some new /\ is_partition (sm_of reqs) new /\
              sm_has_duplicates (rm_map new) = false.
Proof. exact (deduplicate_single_lemma reqs). Qed.
Print Assumptions C04_deduplicate_single_ranges_partial.

(** A map with overlaps, touching ranges and epsilon that meets the hypotheses. *)
Example C04_nontrivial :
  let reqs := [[]; [mkR 97 123]; [mkR 97 103]; [mkR 101 106]; [mkR 120 130]] in
  Forall normal reqs /\ Forall (fun s => (length s <= 1)%nat) reqs /\
  option_map (fun m => sm_sets (rm_map m)) (deduplicate (sm_of reqs)) =
  Some [[]; [mkR 106 120]; [mkR 97 101]; [mkR 101 103]; [mkR 103 106]; [mkR 120 123]; [mkR 123 130]].
Proof.
  cbv zeta. split; [|split; [repeat (apply Forall_cons; [cbn; lia|]); apply Forall_nil|vm_compute; reflexivity]].
  unfold normal, valid_range, c_MaxSymbol. repeat (constructor; cbn); try lia.
Qed.

(** A map of several multi-range sets that meets [all_compatible]: [0-9a-f], [0-9], [a-z_]. *)
Example C04_compatible_nontrivial :
  let reqs := [[mkR 48 58; mkR 97 103]; [mkR 48 58]; [mkR 95 96; mkR 97 123]] in
  Forall normal reqs /\ all_compatible (sm_of reqs) /\
  option_map (fun m => sm_sets (rm_map m)) (deduplicate (sm_of reqs)) =
  Some [[mkR 48 58]; [mkR 97 103]; [mkR 95 96; mkR 103 123]].
Proof.
  cbv zeta. split; [|split; [|vm_compute; reflexivity]].
  - unfold normal, valid_range, c_MaxSymbol. repeat (constructor; cbn); try lia.
  - apply all_compatible_b_sound. vm_compute. reflexivity.
Qed.

(** C04: copying a remapped map loses its sets (the base is not copied). *)
Theorem C04_copy_refuted : exists reqs new, Forall normal reqs /\
  deduplicate (sm_of reqs) = Some new /\ is_partition (sm_of reqs) new /\
  ~ is_partition (sm_of reqs) (rm_copy new).
Proof. exact rm_copy_lemma. Qed.
Print Assumptions C04_copy_refuted.
