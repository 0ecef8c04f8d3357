(** Independent specification for symbol maps and their deduplication. *)
From Verif Require Import Base OrdMap SymbolSetModel SymbolSetSpec SymbolMapModel.
Local Open Scope Z_scope.

(** A client's history: the sets for which identifiers were requested, in order.
    The result is the map and the identifiers returned. *)
Fixpoint sm_run (m : symbol_map) (reqs : list symbol_set) : symbol_map * list Z :=
  match reqs with
  | [] => (m, [])
  | s :: t => let '(i, m1) := sm_identifier m s in
              let '(m2, l) := sm_run m1 t in (m2, i :: l)
  end.

Definition sm_of (reqs : list symbol_set) : symbol_map := fst (sm_run sm_empty reqs).
Definition ids_of (reqs : list symbol_set) : list Z := snd (sm_run sm_empty reqs).

(** The distinct sets in order of first request. *)
Definition range_eq_dec (a b : range) : {a = b} + {a <> b}.
Proof. decide equality; apply Z.eq_dec. Defined.
Definition set_eq_dec : forall s t : symbol_set, {s = t} + {s <> t} := list_eq_dec range_eq_dec.
Definition firsts (reqs : list symbol_set) : list symbol_set := rev (nodup set_eq_dec (rev reqs)).

(** What a deduplicated map has to satisfy, in terms of the API: *)
Record is_partition (src : symbol_map) (new : remapped) : Prop := {
  (* no symbol is in two of the new sets *)
  ip_disjoint : forall i j x, contains (sm_get (rm_map new) i) x = true ->
                              contains (sm_get (rm_map new) j) x = true -> i = j;
  (* each old set is exactly the union of the new sets it is remapped to *)
  ip_union : forall id, 0 <= id < sm_count src -> forall x,
      contains (sm_get src id) x = true <->
      exists n, In n (rm_new_symbols new id) /\ contains (sm_get (rm_map new) n) x = true;
  (* two symbols share a new set exactly if they are in the same old sets (and in some) *)
  ip_coarsest : forall x y,
      (exists n, contains (sm_get (rm_map new) n) x = true /\ contains (sm_get (rm_map new) n) y = true) <->
      (exists id, contains (sm_get src id) x = true) /\
      (forall id, contains (sm_get src id) x = true <-> contains (sm_get src id) y = true);
  (* identifiers handed out are identifiers of the new map *)
  ip_ids : forall id n, In n (rm_new_symbols new id) -> 0 <= n < sm_count (rm_map new);
  (* an old epsilon (empty) set goes to exactly one new set, again the empty one *)
  ip_epsilon : forall id, 0 <= id < sm_count src -> sm_get src id = [] ->
      exists n, rm_new_symbols new id = [n] /\ sm_get (rm_map new) n = [];
  (* and only an epsilon set is remapped to the empty set *)
  ip_epsilon_only : forall id n, In n (rm_new_symbols new id) -> sm_get (rm_map new) n = [] ->
      sm_get src id = [] }.

(** The ranges of a map in the order in which iteration visits them. *)
Definition visit_order (m : symbol_map) : list range := flat_map fst (sm_ids m).

Definition covered (P : list range) (x : Z) : Prop := exists r, In r P /\ in_range x r.

(** A range that is compatible with what was visited before it: if it meets symbols seen
    before, then either its last symbol or the one just after it was seen before, or
    nothing beyond its end was. *)
Definition compatible (P : list range) (r : range) : Prop :=
  (exists x, in_range x r /\ covered P x) ->
  covered P (hi r - 1) \/ covered P (hi r) \/ (forall x, hi r < x -> ~ covered P x).

Definition all_compatible (m : symbol_map) : Prop :=
  forall P r Q, visit_order m = P ++ r :: Q -> compatible P r.
