(** Model of to_compact_dfa and to_ndfa_with_merged_symbols in
    TameParse/Dfa/ndfa_transformations.cpp.  No proofs in this file. *)
From Verif Require Import Base OrdMap SymbolSetModel SymbolMapModel NdfaModel.
Local Open Scope Z_scope.

Section Reduce.
  Context {A : Type}.

  (** ** to_compact_dfa, ndfa_transformations.cpp 242-457

      [newStates] is a vector of ordered sets of old states, [oldToNew] a map; reading an
      absent key of [oldToNew] yields 0 (operator[] on a map). *)
  Definition oldmap := list (nat * nat).
  Definition mget (m : oldmap) (q : nat) : nat := match mfind Nat.ltb q m with Some c => c | None => O end.

  (** 284-285 (negated) *)
  Definition is_accepting (d : ndfa A) (q : nat) : bool :=
    match mfind Nat.ltb q (n_accept d) with Some (_ :: _) => true | _ => false end.

  (** 261-269 *)
  Fixpoint compact_initial (k : nat) (init : list nat) (m : oldmap) : oldmap :=
    match init with
    | [] => m
    | q :: t => compact_initial (S k) t (mset Nat.ltb q k m)
    end.

  (** 280-333: one old state.  [stateForActions] is searched but never written, so the search
      always fails and every accepting state takes the branch that makes a new state; the set
      of actions (and with it [firstAction]) has no effect.  The new state's number is
      [newStates.size()-1] before the vector grows. *)
  Definition compact_place (d : ndfa A) (nonAccepting : nat) (st : list (list nat) * oldmap) (q : nat)
    : list (list nat) * oldmap :=
    let '(ns, m) := st in
    match mfind Nat.ltb q m with
    | Some _ => st
    | None =>
      if is_accepting d q then
        let target := (length ns - 1)%nat in
        let ns1 := ns ++ [[]] in
        (set_nth target (sins Nat.ltb q (nth target ns1 [])) ns1, mset Nat.ltb q target m)
      else (set_nth nonAccepting (sins Nat.ltb q (nth nonAccepting ns [])) ns, mset Nat.ltb q nonAccepting m)
    end.

  (** 358-360 *)
  Definition compact_template (d : ndfa A) (m : oldmap) (first : nat) : list (Z * nat) :=
    fold_left (fun tm (t : transition) => mset Z.ltb (fst t) (mget m (snd t)) tm) (get_state d first) [].

  (** 369-391 *)
  Definition compact_different (d : ndfa A) (first : nat) (tm : list (Z * nat)) (m : oldmap) (q : nat) : bool :=
    negb (Nat.eqb (length (get_state d q)) (length (get_state d first))) ||
    existsb (fun t : transition =>
      match mfind Z.ltb (fst t) tm with
      | None => true
      | Some c => negb (Nat.eqb c (mget m (snd t)))
      end) (get_state d q).

  (** 346-416: one new state.  The loop over the old states only reads and writes [oldToNew];
      its insertions into [newStates[splitStateId]] and the removals that follow it are done
      here after the loop, in the same order.  The split state is again number
      [newStates.size()-1] before the vector grows. *)
  Definition compact_split (d : ndfa A) (st : list (list nat) * oldmap) (c : nat)
    : list (list nat) * oldmap * bool :=
    let '(ns, m) := st in
    match nth c ns [] with
    | [] | [_] => (ns, m, false)
    | first :: rest =>
      let tm := compact_template d m first in
      let split := (length ns - 1)%nat in
      let '(m1, removed) := fold_left (fun acc q =>
          let '(m, removed) := acc in
          if compact_different d first tm m q then (mset Nat.ltb q split m, removed ++ [q]) else acc)
        rest (m, []) in
      match removed with
      | [] => (ns, m1, false)
      | _ =>
        let ns1 := ns ++ [[]] in
        let ns2 := set_nth split (fold_left (fun s q => sins Nat.ltb q s) removed (nth split ns1 [])) ns1 in
        let ns3 := set_nth c (fold_left (fun s q => serase Nat.ltb q s) removed (nth c ns2 [])) ns2 in
        (ns3, m1, true)
      end
    end.

  (** 344-417: the for loop (the vector may grow while it runs) *)
  Fixpoint compact_pass (fuel : nat) (d : ndfa A) (c : nat) (st : list (list nat) * oldmap) (changed : bool)
    : option (list (list nat) * oldmap * bool) :=
    if Nat.leb (length (fst st)) c then Some (st, changed)
    else match fuel with
         | O => None
         | S fuel => let '(st', ch) := compact_split d st c in compact_pass fuel d (S c) st' (changed || ch)
         end.

  (** 337-418: while changed *)
  Fixpoint compact_loop (fuel pfuel : nat) (d : ndfa A) (st : list (list nat) * oldmap)
    : option (list (list nat) * oldmap) :=
    match fuel with
    | O => None
    | S fuel => match compact_pass pfuel d 0 st false with
                | None => None
                | Some (st', true) => compact_loop fuel pfuel d st'
                | Some (st', false) => Some st'
                end
    end.

  (** 427-449: the states and accept actions; empty new states are skipped.  The accept
      actions of new state number [c] are stored under [c]. *)
  Definition compact_state (d : ndfa A) (m : oldmap) (template : nat) : list transition :=
    fold_left (fun acc (t : transition) => sins trans_ltb (fst t, mget m (snd t)) acc) (get_state d template) [].

  Fixpoint compact_build (d : ndfa A) (m : oldmap) (c : nat) (ns : list (list nat))
    : list (list transition) * list (nat * list A) :=
    match ns with
    | [] => ([], [])
    | s :: t =>
      let '(states, acc) := compact_build d m (S c) t in
      match s with
      | [] => (states, acc)
      | template :: _ => (compact_state d m template :: states, (c, actions_for_state d template) :: acc)
      end
    end.

  (** 242-457.  [None]: the fuel was too small. *)
  Definition to_compact_dfa (fuel : nat) (d : ndfa A) (init : list nat) : option (ndfa A) :=
    let ns0 := map (fun q => [q]) init ++ [[]] in
    let m0 := compact_initial 0 init [] in
    let st := fold_left (compact_place d (length init)) (seq 0 (count_states d)) (ns0, m0) in
    match compact_loop fuel fuel d st with
    | None => None
    | Some (ns, m) => let '(states, acc) := compact_build d m 0 ns in
                      Some (mkN states (n_symbols d) acc)
    end.

  (** ** to_ndfa_with_merged_symbols, ndfa_transformations.cpp 464-630

      [uniqueSymbols] is a vector of ordered sets of old symbol ids, [symbolForSymbol] a map
      (absent keys read as 0), [stateForSet] a map to a state or -1 ([None]). *)
  Definition symmap := list (Z * nat).
  Definition sget (m : symmap) (s : Z) : nat := match mfind Z.ltb s m with Some c => c | None => O end.

  (** moves the symbols [l] that are in class [c] to class [new] (the loops 526-538 and
      549-558) *)
  Definition merge_move (c new : nat) (st : list (list Z) * symmap) (l : list Z) : list (list Z) * symmap :=
    fold_left (fun st s =>
      let '(us, m) := st in
      if Nat.eqb (sget m s) c then
        let us1 := set_nth c (serase Z.ltb s (nth c us [])) us in
        let us2 := set_nth new (sins Z.ltb s (nth new us1 [])) us1 in
        (us2, mset Z.ltb s new m)
      else st) l st.

  (** 494-575: the loop over the symbols and the transitions of one state.  [all] is the set
      of all symbols, [st] all transitions of the state, [tr] those from [transit] on. *)
  Fixpoint merge_loop (fuel : nat) (all : list Z) (st : list transition) (syms : list Z) (tr : list transition)
      (sfs : list (nat * option nat)) (us : list (list Z)) (m : symmap) : option (list (list Z) * symmap) :=
    match syms with
    | [] => Some (us, m)
    | s :: syms' =>
      match fuel with
      | O => None
      | S fuel =>
        let c := sget m s in
        let newState := match tr with
                        | t :: _ => if fst t =? s then Some (snd t) else None
                        | [] => None
                        end in
        let '(sfs1, us1, m1) :=
          match mfind Nat.ltb c sfs with
          | None => (mset Nat.ltb c newState sfs, us, m)
          | Some old =>
            if match old, newState with
               | Some a, Some b => Nat.eqb a b
               | None, None => true
               | _, _ => false
               end
            then (sfs, us, m)
            else
              let new := length us in
              let moved :=
                match newState with
                | Some target => map fst (filter (fun t : transition => Nat.eqb (snd t) target) tr)
                | None => fold_left (fun l (t : transition) => serase Z.ltb (fst t) l) st all
                end in
              let '(us1, m1) := merge_move c new (us ++ [[]], m) moved in
              (sfs, us1, m1)
          end in
        match newState, tr with
        | Some _, _ :: tr' =>
          match tr' with
          | t :: _ => if fst t =? s then merge_loop fuel all st syms tr' sfs1 us1 m1
                      else merge_loop fuel all st syms' tr' sfs1 us1 m1
          | [] => merge_loop fuel all st syms' tr' sfs1 us1 m1
          end
        | _, _ => merge_loop fuel all st syms' tr sfs1 us1 m1
        end
      end
    end.

  (** 481-576: every iteration passes a symbol or a transition, so this fuel is enough. *)
  Fixpoint merge_states (all : list Z) (states : list (list transition)) (us : list (list Z)) (m : symmap)
    : option (list (list Z) * symmap) :=
    match states with
    | [] => Some (us, m)
    | st :: t => match merge_loop (length all + length st) all st all st [] us m with
                 | None => None
                 | Some (us', m') => merge_states all t us' m'
                 end
    end.

  (** 578-594 *)
  Definition merge_symbols (d : ndfa A) (us : list (list Z)) : symbol_map :=
    fold_left (fun sm ids =>
      snd (sm_identifier sm (fold_left (fun s id => union_set s (sm_get (n_symbols d) id)) ids []))) us sm_empty.

  (** 596-622 *)
  Definition merge_state (m : symmap) (st : list transition) : list transition :=
    fold_left (fun acc (t : transition) => sins trans_ltb (Z.of_nat (sget m (fst t)), snd t) acc)
      st [].

  (** 464-630.  The ids of the symbol map are visited in the order of its iterator; they are
      collected in an ordered set. *)
  Definition to_ndfa_with_merged_symbols (d : ndfa A) : option (ndfa A) :=
    let ids := map snd (sm_ids (n_symbols d)) in
    let all := fold_left (fun l s => sins Z.ltb s l) ids [] in
    let m0 := fold_left (fun m s => mset Z.ltb s O m) ids [] in
    match merge_states all (n_states d) [all] m0 with
    | None => None
    | Some (us, m) =>
      Some (mkN (map (merge_state m) (n_states d)) (merge_symbols d us)
                (map (fun q => (q, actions_for_state d q)) (seq 0 (count_states d))))
    end.
End Reduce.
