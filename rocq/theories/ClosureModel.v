(** Model of the closure of LR items: item::fill_follow, insert_closure_item, closure and
    cache_closure (item.cpp 110-240, standard_items.cpp 86-103 and 196-203, ebnf_items.cpp 200-431)
    and lalr_builder::create_closure and generate_closure (lalr_builder.cpp 84-121, 381-421). *)
From Verif Require Import Base OrdMap GrammarModel FirstModel LrItemModel.
Local Open Scope Z_scope.

(** m_CachedItemSets (grammar.h 107).  An entry for an item that has none yet is made with an empty
    set (grammar.cpp 218-229), so a missing entry and an empty set are the same. *)
Definition closure_cache := list (item * lr1_set).

Section Grammar.
  Context (rid : rule -> Z).
  (** grammar::first.  Its answers do not change (C25_stable). *)
  Context (first_of : item -> iset).
  (** grammar::rules_for_nonterminal (grammar.cpp 86-101): the items of each rule.  The nonterminal
      of such a rule is [INonterm n]. *)
  Context (rules : Z -> list (list item)).

  (** item.cpp 120-143: the items after the first one that follows *)
  Fixpoint follow_rest (rest : list item) (follow la : iset) : iset :=
    match rest with
    | [] => if icontains follow IEmpty then imerge (ierase IEmpty follow) la else follow
    | i :: rest => if icontains follow IEmpty then follow_rest rest (imerge (ierase IEmpty follow) (first_of i)) la else follow
    end.
  (** item.cpp 110-145 *)
  Definition fill_follow (k : lr0) (la : iset) : iset :=
    match skipn (S (l_offset k)) (r_items (l_rule k)) with
    | [] => la
    | i :: rest => follow_rest rest (first_of i) la
    end.

  (** ebnf_items.cpp 376-431.  Rules that consist of one alternative are replaced by the rules of
      that alternative.  The C++ code does this with a stack and a set of the alternatives already
      seen, which changes the order of the rules and drops repeated ones. *)
  Fixpoint alternatives (i : item) : list (list item) :=
    match i with
    | IEbnf Alternative rs =>
        flat_map (fun r => match r with
                           | [j] => match j with IEbnf Alternative _ => alternatives j | _ => [r] end
                           | _ => [r]
                           end) rs
    | _ => []
    end.
  (** The rules that the closure of an item adds: standard_items.cpp 88, ebnf_items.cpp 204-213
      (optional), 258-266 (repeat), 321-330 (repeat, possibly zero times) *)
  Definition bodies (i : item) : list (list item) :=
    match i with
    | INonterm n => rules n
    | IEbnf Optional rs => [[]; nth 0 rs []]
    | IEbnf Repeat rs => [nth 0 rs []; i :: nth 0 rs []]
    | IEbnf RepeatZero rs => [[]; i :: nth 0 rs []]
    | IEbnf Alternative _ => alternatives i
    | _ => []
    end.

  (** The cache and the number of calls of cache_closure so far *)
  Definition caching := (closure_cache * nat)%type.
  Definition cached_set (i : item) (c : closure_cache) : lr1_set := match mfind item_ltb i c with Some s => s | None => [] end.

  Section Recursion.
    (** cache_closure *)
    Context (rec : item -> lr0 -> iset -> lr1_set -> caching -> option (lr1_set * caching)).
    (** item.cpp 157-168 *)
    Definition insert_closure_item (k : lr0) (la : iset) (st : lr1_set) (c : caching) : option (lr1_set * caching) :=
      let '(st, grew) := lr1_insert rid k la st in
      if grew then
        match r_items (l_rule k) with
        | [] => Some (st, c)
        | ITerm _ :: _ => Some (st, c)
        | initial :: _ => rec initial k la st c
        end
      else Some (st, c).
    Fixpoint insert_bodies (i : item) (bs : list (list item)) (follow : iset) (st : lr1_set) (c : caching) : option (lr1_set * caching) :=
      match bs with
      | [] => Some (st, c)
      | r :: bs =>
          match insert_closure_item (mkLr0 (mkRule i r) 0) follow st c with
          | None => None
          | Some (st, c) => insert_bodies i bs follow st c
          end
      end.
    (** standard_items.cpp 86-103, 196-203, ebnf_items.cpp 200-215, 250-267, 313-332, 376-431;
        item.cpp 179 for all other items *)
    Definition closure (i : item) (k : lr0) (la : iset) (st : lr1_set) (c : caching) : option (lr1_set * caching) :=
      match i with
      | IEmpty => Some (fst (lr1_insert rid (advance k) la st), c)
      | _ => insert_bodies i (bodies i) (fill_follow k la) st c
      end.
  End Recursion.

  (** item.cpp 219-240: the cached set with the follow set in place of the end of input *)
  Definition use_cached (cached : lr1_set) (follow : iset) (st : lr1_set) : lr1_set :=
    fold_left (fun st '(k, la) => fst (lr1_insert rid k (if icontains la IEoi then imerge (ierase IEoi la) follow else la) st)) cached st.
  (** item.cpp 201-205: $ -> ^ item [$] *)
  Definition fake_item (i : item) : lr0 := mkLr0 (mkRule IEoi [i]) 0.

  (** m_CachingClosure.  The flag belongs to an item object, and equal items can be different
      objects, so whether it is set is not a function of the item.  [busy n stack i] says what the
      flag is at call number [n] of cache_closure, for the item [i], when the calls for the items
      [stack] have it set. *)
  Context (busy : nat -> list item -> item -> bool).
  (** item.cpp 185-240.  [None]: recursion deeper than [fuel] *)
  Fixpoint cache_closure (fuel : nat) (stack : list item) (i : item) (k : lr0) (la : iset) (st : lr1_set) (c : caching) : option (lr1_set * caching) :=
    match fuel with
    | O => None
    | S fuel =>
        let c := (fst c, S (snd c)) in
        if busy (snd c) stack i then closure (cache_closure fuel stack) i k la st c
        else
          let filled :=
            match cached_set i (fst c) with
            | [] =>
                match closure (cache_closure fuel (i :: stack)) i (fake_item i) [IEoi] [] c with
                | None => None
                | Some (closed, c) => Some (closed, (mset item_ltb i closed (fst c), snd c))
                end
            | cached => Some (cached, c)
            end in
          match filled with
          | None => None
          | Some (cached, c) => Some (use_cached cached (fill_follow k la) st, c)
          end
    end.

  (** lalr_builder.cpp 408-417: the items that are new go to the end of the queue *)
  Fixpoint add_new (items : lr1_set) (target : lr1_set) (queue : list lr1) : lr1_set * list lr1 :=
    match items with
    | [] => (target, queue)
    | (k, la) :: items =>
        let '(target, grew) := lr1_insert rid k la target in
        add_new items target (if grew then queue ++ [(k, la)] else queue)
    end.
  (** lalr_builder.cpp 397-420.  [steps] bounds the number of items taken from the queue. *)
  Fixpoint close_queue (fuel steps : nat) (queue : list lr1) (target : lr1_set) (c : caching) : option (lr1_set * caching) :=
    match steps with
    | O => None
    | S steps =>
        match queue with
        | [] => Some (target, c)
        | (k, la) :: queue =>
            match after_dot k with
            | [] => close_queue fuel steps queue target c
            | i :: _ =>
                match cache_closure fuel [] i k la [] c with
                | None => None
                | Some (items, c) => let '(target, queue) := add_new items target queue in close_queue fuel steps queue target c
                end
            end
        end
    end.
  (** lalr_builder.cpp 381-421; [kernel] holds the items of the state and their lookaheads. *)
  Definition generate_closure (fuel steps : nat) (kernel : list lr1) (c : caching) : option (lr1_set * caching) :=
    close_queue fuel steps kernel (fold_left (fun s '(k, la) => fst (lr1_insert rid k la s)) kernel []) c.

  (** closure_set: std::set of LR(0) items (lalr_builder.h) *)
  Definition lr0_set := list lr0.
  Definition lr0_insert (k : lr0) (s : lr0_set) : lr0_set * bool := (sins (lr0_ltb rid) k s, negb (smem (lr0_ltb rid) k s)).
  (** lalr_builder.cpp 113-118 *)
  Fixpoint add_new0 (items : lr1_set) (target : lr0_set) (queue : list lr1) : lr0_set * list lr1 :=
    match items with
    | [] => (target, queue)
    | (k, la) :: items =>
        let '(target, new) := lr0_insert k target in
        add_new0 items target (if new then queue ++ [(k, la)] else queue)
    end.
  Fixpoint close_queue0 (fuel steps : nat) (queue : list lr1) (target : lr0_set) (c : caching) : option (lr0_set * caching) :=
    match steps with
    | O => None
    | S steps =>
        match queue with
        | [] => Some (target, c)
        | (k, la) :: queue =>
            match after_dot k with
            | [] => close_queue0 fuel steps queue target c
            | i :: _ =>
                match cache_closure fuel [] i k la [] c with
                | None => None
                | Some (items, c) => let '(target, queue) := add_new0 items target queue in close_queue0 fuel steps queue target c
                end
            end
        end
    end.
  (** lalr_builder.cpp 84-121 *)
  Definition create_closure (fuel steps : nat) (kernel : list lr1) (c : caching) : option (lr0_set * caching) :=
    close_queue0 fuel steps kernel (fold_left (fun s '(k, la) => fst (lr0_insert k s)) kernel []) c.
  (** lalr_builder.cpp 270-274: the closure of one kernel item in complete_lookaheads *)
  Definition item_closure (fuel : nat) (k : lr0) (la : iset) (c : caching) : option (lr1_set * caching) :=
    match after_dot k with
    | [] => Some (fst (lr1_insert rid k la []), c)
    | i :: _ => cache_closure fuel [] i k la (fst (lr1_insert rid k la [])) c
    end.
End Grammar.
