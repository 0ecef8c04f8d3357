(** Model of the construction of the states and lookaheads of a parser: lalr_builder::add_initial_state,
    complete_parser and complete_lookaheads (lalr_builder.cpp 54-365). *)
From Verif Require Import Base OrdMap GrammarModel FirstModel LrItemModel ClosureModel MachineModel.
Local Open Scope Z_scope.

(** lr_item_id (lalr_builder.h 56-77): a state and the place of an item in it *)
Definition lid := (Z * Z)%type.
Definition lid_ltb (a b : lid) : bool :=
  if fst a <? fst b then true else if negb (fst a =? fst b) then false else snd a <? snd b.
(** lalr_builder.h 80 *)
Definition propagation := list (lid * list lid).
(** m_StatesForGuard: the state for the guard rule with an identifier *)
Definition guard_states := list (Z * Z).

Section Builder.
  Context (rid : rule -> Z) (first_of : item -> iset) (rules : Z -> list (list item)) (busy : nat -> list item -> item -> bool).

  (** lalr_builder.cpp 65-75 and 174-182: a state with one item that has one symbol as its lookahead *)
  Definition single_state (k : lr0) (x : item) : lrstate :=
    let '(s, n) := state_add rid k new_state in
    mkState (st_ids s) (st_list s) (vset n (iinsert x (nth n (st_looks s) no_items)) (st_looks s)) (st_ident s).
  (** lalr_builder.cpp 58-80 *)
  Definition language_item (language : item) : lr0 := mkLr0 (mkRule IEmpty [language]) 0.
  Definition add_initial_state (language : item) (m : machine) : machine * Z :=
    let '(m, _, n) := add_state rid (single_state (language_item language) IEoi) m in (m, n).

  (** The rule of a guard (guard.cpp 36-73): its nonterminal is the guard *)
  Definition guard_rule (i : item) : option rule := match i with IGuard p l => Some (mkRule i l) | _ => None end.
  (** item::generate_transition: item.cpp 256-259, standard_items.cpp 209-212 *)
  Definition generate_transition (i : item) : bool := match i with IEmpty => false | _ => true end.
  (** lalr_builder.cpp 164-196: the state for a guard *)
  Definition guard_state (i : item) (m : machine) (guards : guard_states) (queue : list Z) : machine * guard_states * list Z :=
    match guard_rule i with
    | None => (m, guards, queue)
    | Some r =>
        match mfind Z.ltb (rid r) guards with
        | Some _ => (m, guards, queue)
        | None => let '(m, _, n) := add_state rid (single_state (mkLr0 r 0) IEog) m in (m, mset Z.ltb (rid r) n guards, queue ++ [n])
        end
    end.
  (** lalr_builder.cpp 147-201: the kernels that can be reached, by the symbol that leads to them *)
  Fixpoint scan_closure (items : list lr0) (news : list (item * lrstate)) (m : machine) (guards : guard_states) (queue : list Z) : list (item * lrstate) * machine * guard_states * list Z :=
    match items with
    | [] => (news, m, guards, queue)
    | k :: items =>
        match after_dot k with
        | [] => scan_closure items news m guards queue
        | i :: _ =>
            if generate_transition i then
              let '(m, guards, queue) := guard_state i m guards queue in
              let s := match mfind item_ltb i news with Some s => s | None => new_state end in
              scan_closure items (mset item_ltb i (fst (state_add rid (advance k) s)) news) m guards queue
            else scan_closure items news m guards queue
        end
    end.
  (** lalr_builder.cpp 204-217.  [None]: access outside the transitions *)
  Fixpoint add_targets (q : Z) (news : list (item * lrstate)) (m : machine) (max : Z) (queue : list Z) : option (machine * Z * list Z) :=
    match news with
    | [] => Some (m, max, queue)
    | (i, s) :: news =>
        let '(m, _, t) := add_state rid s m in
        match add_transition q i t m with
        | None => None
        | Some m => if max <=? t then add_targets q news m (t + 1) (queue ++ [t]) else add_targets q news m max queue
        end
    end.
  (** The items of a state with their lookaheads *)
  Definition kernel_items (s : lrstate) : list lr1 := combine (st_list s) (st_looks s).
  (** lalr_builder.cpp 137-218.  [steps] bounds the number of states taken from the queue, [fuel] the
      work for one closure; [None] stands for having exceeded them or for an access outside the
      states. *)
  Fixpoint make_states (fuel steps : nat) (queue : list Z) (max : Z) (m : machine) (guards : guard_states) (c : caching) : option (machine * guard_states * caching) :=
    match steps with
    | O => None
    | S steps =>
        match queue with
        | [] => Some (m, guards, c)
        | q :: queue =>
            match state_with_id q m with
            | None => None
            | Some s =>
                match create_closure rid first_of rules busy fuel fuel (kernel_items s) c with
                | None => None
                | Some (items, c) =>
                    let '(news, m, guards, queue) := scan_closure items [] m guards queue in
                    match add_targets q news m max queue with
                    | None => None
                    | Some (m, max, queue) => make_states fuel steps queue max m guards c
                    end
                end
            end
        end
    end.
  (** All the identifiers of states *)
  Definition state_ids (m : machine) : list Z := map Z.of_nat (seq 0 (length (m_states m))).
  (** lalr_builder.cpp 123-218 *)
  Definition complete_states (fuel steps : nat) (m : machine) (guards : guard_states) (c : caching) : option (machine * guard_states * caching) :=
    make_states fuel steps (state_ids m) (count_states m) m guards c.

  (** lalr_builder.cpp 330-333 *)
  Definition add_link (from to : lid) (p : propagation) : propagation :=
    mset lid_ltb from (sins lid_ltb to (match mfind lid_ltb from p with Some l => l | None => [] end)) p.
  (** lalr_builder.cpp 280-334: the closure of an item that has the empty item as its lookahead.  The
      tables of spontaneous lookaheads (m_Spontaneous, m_SpontaneousLookahead) are made in
      LookSourceModel.  [None]: access outside the states *)
  Fixpoint pass_items (from : lid) (ts : list (item * Z)) (items : lr1_set) (m : machine) (p : propagation) : option (machine * propagation) :=
    match items with
    | [] => Some (m, p)
    | (k, la) :: items =>
        match after_dot k with
        | [] => pass_items from ts items m p
        | i :: _ =>
            match mfind item_ltb i ts with
            | None => pass_items from ts items m p
            | Some t =>
                match state_with_id t m with
                | None => None
                | Some s =>
                    let n := find_identifier rid (advance k) s in
                    if n <? 0 then pass_items from ts items m p
                    else
                      match add_lookahead t n la m with
                      | None => None
                      | Some (m, _) => pass_items from ts items m (if icontains la IEmpty then add_link from (t, n) p else p)
                      end
                end
            end
        end
    end.
  (** lalr_builder.cpp 258-335: the items [ks] of state [q], of which the first is number [n] *)
  Fixpoint pass_state (fuel : nat) (q : Z) (ks : list lr0) (n : Z) (ts : list (item * Z)) (m : machine) (p : propagation) (c : caching) : option (machine * propagation * caching) :=
    match ks with
    | [] => Some (m, p, c)
    | k :: ks =>
        if at_end k then pass_state fuel q ks (n + 1) ts m p c
        else
          match item_closure rid first_of rules busy fuel k [IEmpty] c with
          | None => None
          | Some (items, c) =>
              match pass_items (q, n) ts items m p with
              | None => None
              | Some (m, p) => pass_state fuel q ks (n + 1) ts m p c
              end
          end
    end.
  (** lalr_builder.cpp 252-336 *)
  Fixpoint pass_states (fuel : nat) (qs : list Z) (m : machine) (p : propagation) (c : caching) : option (machine * propagation * caching) :=
    match qs with
    | [] => Some (m, p, c)
    | q :: qs =>
        match state_with_id q m with
        | None => None
        | Some s =>
            match pass_state fuel q (st_list s) 0 (transitions_for_state q m) m p c with
            | None => None
            | Some (m, p, c) => pass_states fuel qs m p c
            end
        end
    end.
  (** lalr_builder.cpp 354-363.  A link from an item to itself adds nothing, so it does not matter that
      the lookahead is read while it is extended. *)
  Fixpoint pass_on (la : iset) (targets : list lid) (p : propagation) (m : machine) (todo : list lid) : option (machine * list lid) :=
    match targets with
    | [] => Some (m, todo)
    | t :: targets =>
        match add_lookahead (fst t) (snd t) la m with
        | None => None
        | Some (m, changed) => pass_on la targets p m (if changed && match mfind lid_ltb t p with Some _ => true | None => false end then sins lid_ltb t todo else todo)
        end
    end.
  (** lalr_builder.cpp 347-364: the smallest item first.  [steps] bounds the number of rounds. *)
  Fixpoint propagate (steps : nat) (todo : list lid) (p : propagation) (m : machine) : option machine :=
    match steps with
    | O => None
    | S steps =>
        match todo with
        | [] => Some m
        | t :: todo =>
            match state_with_id (fst t) m with
            | None => None
            | Some s =>
                match (if snd t <? 0 then None else nth_error (st_looks s) (Z.to_nat (snd t))) with
                | None => None
                | Some la =>
                    match pass_on la (match mfind lid_ltb t p with Some l => l | None => [] end) p m todo with
                    | None => None
                    | Some (m, todo) => propagate steps todo p m
                    end
                end
            end
        end
    end.
  (** lalr_builder.cpp 228-365 *)
  Definition complete_lookaheads (fuel steps : nat) (m : machine) (c : caching) : option (machine * propagation * caching) :=
    match pass_states fuel (state_ids m) m [] c with
    | None => None
    | Some (m, p, c) => match propagate steps (map fst p) p m with None => None | Some m => Some (m, p, c) end
    end.
  (** lalr_builder.cpp 123-225 *)
  Definition complete_parser (fuel steps : nat) (m : machine) (guards : guard_states) (c : caching) : option (machine * guard_states * propagation * caching) :=
    match complete_states fuel steps m guards c with
    | None => None
    | Some (m, guards, c) =>
        match complete_lookaheads fuel steps m c with
        | None => None
        | Some (m, p, c) => Some (m, guards, p, c)
        end
    end.
End Builder.
