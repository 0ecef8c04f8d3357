(** Model of the search for the items that a lookahead comes from: the tables of spontaneous lookaheads
    that lalr_builder::complete_lookaheads makes, and lalr_builder::find_lookahead_source
    (TameParse/Lr/lalr_builder.cpp). *)
From Verif Require Import Base OrdMap GrammarModel FirstModel LrItemModel ClosureModel MachineModel BuilderModel.
Local Open Scope Z_scope.

(** source_to_target (lalr_builder.h 86): std::pair compares its first parts, then its second parts. *)
Definition link := (lid * lid)%type.
Definition link_ltb (a b : link) : bool := if lid_ltb (fst a) (fst b) then true else if lid_ltb (fst b) (fst a) then false else lid_ltb (snd a) (snd b).
(** m_Spontaneous and m_SpontaneousLookahead (lalr_builder.h 110-119) *)
Definition spontaneous := (propagation * list (link * iset))%type.

Section Tables.
  Context (rid : rule -> Z) (first_of : item -> iset) (rules : Z -> list (list item)) (busy : nat -> list item -> item -> bool).
  (** lalr_builder.cpp 278: the entry of an item is made even if it stays empty *)
  Definition note_entry (from : lid) (sp : spontaneous) : spontaneous :=
    (mset lid_ltb from (match mfind lid_ltb from (fst sp) with Some l => l | None => [] end) (fst sp), snd sp).
  (** lalr_builder.cpp 309-317 *)
  Definition note_link (from to : lid) (la : iset) (sp : spontaneous) : spontaneous :=
    if (1 <? length la)%nat || (match la with [] => false | _ => true end && negb (icontains la IEmpty))
    then (add_link from to (fst sp), mset link_ltb (from, to) (imerge (match mfind link_ltb (from, to) (snd sp) with Some s => s | None => no_items end) la) (snd sp))
    else sp.
  (** lalr_builder.cpp 281-317, the part that makes these two tables; the rest of the loop is pass_items in
      BuilderModel.  The lookaheads that the machine gets meanwhile are not read here, so the loop is taken
      to run over the finished machine.  [None]: access outside the states *)
  Fixpoint note_items (from : lid) (ts : list (item * Z)) (items : lr1_set) (m : machine) (sp : spontaneous) : option spontaneous :=
    match items with
    | [] => Some sp
    | (k, la) :: items =>
        match after_dot k with
        | [] => note_items from ts items m sp
        | i :: _ =>
            match mfind item_ltb i ts with
            | None => note_items from ts items m sp
            | Some t =>
                match state_with_id t m with
                | None => None
                | Some s =>
                    let n := find_identifier rid (advance k) s in
                    note_items from ts items m (if n <? 0 then sp else note_link from (t, n) la sp)
                end
            end
        end
    end.
  (** lalr_builder.cpp 258-335 *)
  Fixpoint note_state (fuel : nat) (q : Z) (ks : list lr0) (n : Z) (ts : list (item * Z)) (m : machine) (sp : spontaneous) (c : caching) : option (spontaneous * caching) :=
    match ks with
    | [] => Some (sp, c)
    | k :: ks =>
        if at_end k then note_state fuel q ks (n + 1) ts m sp c
        else
          match item_closure rid first_of rules busy fuel k [IEmpty] c with
          | None => None
          | Some (items, c) =>
              match note_items (q, n) ts items m (note_entry (q, n) sp) with
              | None => None
              | Some sp => note_state fuel q ks (n + 1) ts m sp c
              end
          end
    end.
  (** lalr_builder.cpp 252-336 *)
  Fixpoint note_states (fuel : nat) (qs : list Z) (m : machine) (sp : spontaneous) (c : caching) : option (spontaneous * caching) :=
    match qs with
    | [] => Some (sp, c)
    | q :: qs =>
        match state_with_id q m with
        | None => None
        | Some s =>
            match note_state fuel q (st_list s) 0 (transitions_for_state q m) m sp c with
            | None => None
            | Some (sp, c) => note_states fuel qs m sp c
            end
        end
    end.
  Definition complete_sources (fuel : nat) (m : machine) (c : caching) : option (spontaneous * caching) := note_states fuel (state_ids m) m ([], []) c.
End Tables.

Section Search.
  Context (m : machine) (p : propagation) (sp : spontaneous) (x : item).
  (** lalr_builder.cpp 594-611: the items that give [x] to the item at [t] by themselves *)
  Definition giving (t : lid) : list lid :=
    map fst (filter (fun e => smem lid_ltb t (snd e) && icontains (match mfind link_ltb (fst e, t) (snd sp) with Some s => s | None => no_items end) x) (fst sp)).
  (** lalr_builder.cpp 616: the lookahead of an item.  [None]: access outside the states or items *)
  Definition lookahead_at (f : lid) : option iset :=
    match state_with_id (fst f) m with None => None | Some s => if snd f <? 0 then None else nth_error (st_looks s) (Z.to_nat (snd f)) end.
  (** lalr_builder.cpp 614-631: the items that pass [x] on to the item at [t] *)
  Fixpoint passing (t : lid) (p : propagation) : option (list lid) :=
    match p with
    | [] => Some []
    | (f, ts) :: p =>
        match lookahead_at f with
        | None => None
        | Some la => match passing t p with None => None | Some l => Some (if icontains la x && smem lid_ltb t ts then f :: l else l) end
        end
    end.
  (** lalr_builder.cpp 582-632.  [steps] bounds the number of rounds. *)
  Fixpoint search (steps : nat) (todo visited found : list lid) : option (list lid) :=
    match steps with
    | O => None
    | S steps =>
        match todo with
        | [] => Some found
        | t :: todo =>
            if smem lid_ltb t visited then search steps todo visited found
            else
              match passing t p with
              | None => None
              | Some l => search steps (todo ++ l) (sins lid_ltb t visited) (fold_left (fun s f => sins lid_ltb f s) (giving t ++ l) found)
              end
        end
    end.
  (** lalr_builder.cpp 569-633, with an empty set of items to begin with, as at both places of its use
      (conflict.cpp 219-221, lr1_rewriter.cpp 103-104) *)
  Definition find_lookahead_source (steps : nat) (q n : Z) : option (list lid) := search steps [(q, n)] [] [].
End Search.
