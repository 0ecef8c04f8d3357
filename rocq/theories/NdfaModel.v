(** Model of TameParse/Dfa/ndfa.h/.cpp (data, construction, closure, checks) and of
    to_ndfa_with_unique_symbols / to_dfa in ndfa_transformations.cpp.
    No proofs in this file. *)
From Verif Require Import Base OrdMap SymbolSetModel SymbolMapModel.
Local Open Scope Z_scope.

(** transition.h 35-45, transition.cpp 44-49: a transition (symbol set id, new state),
    ordered by symbol set, then by state.  State numbers are [nat]: the code never stores a
    negative one in a transition (ndfa.cpp 159-160). *)
Definition transition := (Z * nat)%type.
Definition trans_ltb (a b : transition) : bool :=
  if fst a <? fst b then true else if fst b <? fst a then false else Nat.ltb (snd a) (snd b).

(** transition.cpp 52-54 *)
Definition trans_leb (a b : transition) : bool :=
  Nat.ltb (snd a) (snd b) || (fst a <? fst b) || ((fst a =? fst b) && Nat.eqb (snd a) (snd b)).

Section Ndfa.
  (** The accept actions: any class derived from [accept_action] (accept_action.h).
      [clone] yields an equal action, so copies are the action itself.  [eager] is
      accept_action.h 75. *)
  Context {A : Type} (eager : A -> bool).

  (** ndfa.h 75-84.  [m_States] holds one ordered transition set per state; the state
      identifier stored in each state is its index wherever it is used. *)
  Record ndfa := mkN {
    n_states : list (list transition);
    n_symbols : symbol_map;
    n_accept : list (nat * list A) }.

  (** ndfa.cpp 65-72 *)
  Definition ndfa_new : ndfa := mkN [[]] sm_empty [].

  (** ndfa.h 146 *)
  Definition count_states (d : ndfa) : nat := length (n_states d).

  (** ndfa.h 168-174 ([s_NoState] has no transitions) *)
  Definition get_state (d : ndfa) (q : nat) : list transition := nth q (n_states d) [].

  (** ndfa.h 155-165 *)
  Definition actions_for_state (d : ndfa) (q : nat) : list A :=
    if Nat.leb (count_states d) q then []
    else match mfind Nat.ltb q (n_accept d) with Some l => l | None => [] end.

  (** replaces element [k] of a vector *)
  Fixpoint set_nth {X} (k : nat) (x : X) (l : list X) : list X :=
    match l, k with
    | [], _ => []
    | _ :: t, O => x :: t
    | a :: t, S k => a :: set_nth k x t
    end.

  (** ndfa.cpp 126-133 *)
  Definition add_state (d : ndfa) : nat * ndfa :=
    (count_states d, mkN (n_states d ++ [[]]) (n_symbols d) (n_accept d)).

  (** state.cpp: [m_Transitions.insert] *)
  Definition state_add (d : ndfa) (q : nat) (t : transition) : ndfa :=
    mkN (set_nth q (sins trans_ltb t (get_state d q)) (n_states d)) (n_symbols d) (n_accept d).

  (** ndfa.cpp 157-167 *)
  Definition add_transition (d : ndfa) (old : nat) (s : symbol_set) (new : nat) : ndfa :=
    if Nat.leb (count_states d) old then d
    else if Nat.leb (count_states d) new then d
    else let '(id, sm) := sm_identifier (n_symbols d) s in
         state_add (mkN (n_states d) sm (n_accept d)) old (id, new).

  (** [m_Accept[state].push_back(action)] *)
  Definition acc_push (acc : list (nat * list A)) (q : nat) (a : A) : list (nat * list A) :=
    mset Nat.ltb q (match mfind Nat.ltb q acc with Some l => l | None => [] end ++ [a]) acc.

  (** ndfa.cpp 190-193 *)
  Definition accept (d : ndfa) (q : nat) (a : A) : ndfa :=
    mkN (n_states d) (n_symbols d) (acc_push (n_accept d) q a).

  (** ndfa.cpp 196-199 *)
  Definition clear_accept (d : ndfa) (q : nat) : ndfa :=
    mkN (n_states d) (n_symbols d) (mset Nat.ltb q [] (n_accept d)).

  (** [m_Symbols->identifier_for_symbols(epsilon())]: the const methods below call it on the
      automaton's own map, which may add the empty set to that map.  The identifier is all
      that matters to them (a fresh one is used by no transition). *)
  Definition eps_id (d : ndfa) : Z := fst (sm_identifier (n_symbols d) []).

  (** ndfa.cpp 440-474.  [closure_round] is the body of the while loop: it returns the
      extended set and the states added. *)
  Definition closure_round (d : ndfa) (states new : list nat) : list nat * list nat :=
    fold_left (fun acc q =>
      fold_left (fun acc (t : transition) =>
        let '(states, added) := acc in
        if negb (fst t =? eps_id d) then acc
        else if smem Nat.ltb (snd t) states then acc
        else (sins Nat.ltb (snd t) states, sins Nat.ltb (snd t) added))
      (get_state d q) acc)
    new (states, []).

  Fixpoint closure_loop (fuel : nat) (d : ndfa) (states new : list nat) : option (list nat) :=
    match new with
    | [] => Some states
    | _ => match fuel with
           | O => None
           | S fuel => let '(states', added) := closure_round d states new in
                       closure_loop fuel d states' added
           end
    end.

  (** Every round adds a state or is the last, so this many rounds are enough. *)
  Definition closure (d : ndfa) (states : list nat) : option (list nat) :=
    closure_loop (S (count_states d)) d states states.

  (** ndfa.cpp 480-483 *)
  Definition verify_no_symbol_overlap (d : ndfa) : bool := negb (sm_has_duplicates (n_symbols d)).

  (** ndfa.cpp 487-513 *)
  Definition verify_is_dfa (d : ndfa) : bool :=
    forallb (fun st =>
      match fold_left (fun used (t : transition) =>
              match used with
              | None => None
              | Some used => if smem Z.ltb (fst t) used then None else Some (sins Z.ltb (fst t) used)
              end) st (Some [eps_id d]) with
      | Some _ => true
      | None => false
      end) (n_states d).

  (** ndfa_transformations.cpp 196-234.  (Accept lists are copied entry by entry.) *)
  Definition unique_state (m : remapped) (st : list transition) : list transition :=
    fold_left (fun acc (t : transition) =>
      fold_left (fun acc n => sins trans_ltb (n, snd t) acc) (rm_new_symbols m (fst t)) acc) st [].

  Definition to_ndfa_with_unique_symbols (d : ndfa) : option ndfa :=
    match deduplicate (n_symbols d) with
    | None => None
    | Some m => Some (mkN (map (unique_state m) (n_states d)) (rm_map m) (n_accept d))
    end.

  (** ndfa_transformations.cpp 57-192: the data of the subset construction. *)
  Record dfa_work := mkW {
    w_states : list (list transition);     (* states *)
    w_sets : list (list nat);              (* stateSets *)
    w_map : list (list nat * nat);         (* stateMap *)
    w_accept : list (nat * list A);        (* accept *)
    w_stack : list nat }.                  (* remainingStates, top first *)

  Definition setlex := lex_ltb Nat.ltb.

  (** 85-107: one initial state *)
  Definition dfa_initial (d : ndfa) (w : dfa_work) (q : nat) : option dfa_work :=
    match closure d [q] with
    | None => None
    | Some s =>
      let id := length (w_states w) in
      Some (mkW (w_states w ++ [[]]) (w_sets w ++ [s])
                (match mfind setlex s (w_map w) with Some _ => w_map w | None => mset setlex s id (w_map w) end)
                (w_accept w) (id :: w_stack w))
    end.

  Fixpoint dfa_initials (d : ndfa) (w : dfa_work) (init : list nat) : option dfa_work :=
    match init with
    | [] => Some w
    | q :: t => match dfa_initial d w q with Some w' => dfa_initials d w' t | None => None end
    end.

  (** 123-135: [statesForSymbol] *)
  Definition dfa_targets (d : ndfa) (set : list nat) : list (Z * list nat) :=
    fold_left (fun m q =>
      fold_left (fun m (t : transition) =>
        if fst t =? eps_id d then m
        else mset Z.ltb (fst t)
               (sins Nat.ltb (snd t) (match mfind Z.ltb (fst t) m with Some s => s | None => [] end)) m)
      (get_state d q) m) set [].

  (** 137-149: the accept actions met, in order *)
  Definition dfa_actions (d : ndfa) (set : list nat) : list A :=
    flat_map (fun q => match mfind Nat.ltb q (n_accept d) with Some l => l | None => [] end) set.

  (** 155-158 *)
  Fixpoint close_all (d : ndfa) (m : list (Z * list nat)) : option (list (Z * list nat)) :=
    match m with
    | [] => Some []
    | (s, set) :: t =>
      match closure d set, close_all d t with
      | Some set', Some t' => Some ((s, set') :: t')
      | _, _ => None
      end
    end.

  (** 161-182: one transition *)
  Definition dfa_edge (from : nat) (w : dfa_work) (e : Z * list nat) : dfa_work :=
    let '(sym, set) := e in
    let '(w1, target) :=
      match mfind setlex set (w_map w) with
      | Some target => (w, target)
      | None => let id := length (w_states w) in
                (mkW (w_states w ++ [[]]) (w_sets w ++ [set]) (minsert setlex set id (w_map w))
                     (w_accept w) (id :: w_stack w), id)
      end in
    mkW (set_nth from (sins trans_ltb (sym, target) (nth from (w_states w1) [])) (w_states w1))
        (w_sets w1) (w_map w1) (w_accept w1) (w_stack w1).

  (** 110-183: the main loop *)
  Fixpoint dfa_loop (fuel : nat) (d : ndfa) (w : dfa_work) : option dfa_work :=
    match w_stack w with
    | [] => Some w
    | id :: stack =>
      match fuel with
      | O => None
      | S fuel =>
        let set := nth id (w_sets w) [] in
        let acts := dfa_actions d set in
        let w1 := mkW (w_states w) (w_sets w) (w_map w)
                      (fold_left (fun acc a => acc_push acc id a) acts (w_accept w)) stack in
        if existsb eager acts then dfa_loop fuel d w1
        else match close_all d (dfa_targets d set) with
             | None => None
             | Some edges => dfa_loop fuel d (fold_left (dfa_edge id) edges w1)
             end
      end
    end.

  (** 57-192.  [None]: the fuel was too small for the main loop. *)
  Definition to_dfa (fuel : nat) (d : ndfa) (init : list nat) : option ndfa :=
    match init with
    | [] => Some ndfa_new
    | _ => match dfa_initials d (mkW [] [] [] [] []) init with
           | None => None
           | Some w => match dfa_loop fuel d w with
                       | None => None
                       | Some w' => Some (mkN (w_states w') (n_symbols d) (w_accept w'))
                       end
           end
    end.
End Ndfa.
Arguments ndfa A : clear implicits.
