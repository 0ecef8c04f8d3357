(** Model of the rewriters of parser actions: ignored_symbols, weak_symbols, precedence_rewriter and
    lr1_rewriter (TameParse/Lr), precedence_block_rewriter and conflict_attribute_rewriter
    (TameParse/Compiler). *)
From Verif Require Import Base OrdMap GrammarModel FirstModel LrItemModel ActionModel TableModel.
Local Open Scope Z_scope.

Definition aerase (a : action) (s : action_set) : action_set := serase action_ltb a s.
(** lr_action.cpp 33-60: an action like another, with another type or item *)
Definition with_type (t : action_type) (a : action) : action := mkAction t (a_item a) (a_next a) (a_rule a).
Definition with_item (i : item) (a : action) : action := mkAction (a_type a) i (a_next a) (a_rule a).
Definition is_shift (a : action) : bool := match a_type a with Shift => true | _ => false end.
Definition is_reduce (a : action) : bool := match a_type a with Reduce => true | _ => false end.

(** The map from items to the actions for them that several rewriters make (precedence_rewriter.cpp
    50-58, conflict_attribute_rewriter.cpp 46-57, lr1_rewriter.cpp 53-68, conflict.cpp 99-123).  The
    actions for an item are in the order of the set, whether they are kept in a set or in a vector. *)
Definition group (keep : action -> bool) (acts : action_set) : list (item * list action) :=
  fold_left (fun g a => if keep a then mset item_ltb (a_item a) (match mfind item_ltb (a_item a) g with Some l => l | None => [] end ++ [a]) g else g) acts [].
Definition on_terminal (a : action) : bool := is_terminal (a_item a).

(** ignored_symbols.cpp 61-120 *)
Definition ignored_add (i : item) (ignored : iset) : iset := iinsert i ignored.
Definition ignored_copy (ignored : iset) (s : action_set * iset) (a : action) : action_set * iset :=
  let '(new, used) := s in
  match a_type a with
  | Reduce => (ainsert (if icontains ignored (a_item a) then with_type WeakReduce a else a) new, used)
  | Shift => (ainsert a new, if icontains ignored (a_item a) then iinsert (a_item a) used else used)
  | Ignore => (ainsert a new, iinsert (a_item a) used)
  | _ => (ainsert a new, used)
  end.
Definition ignored_rewrite (ignored : iset) : rewriter := fun q acts =>
  let '(new, used) := fold_left (ignored_copy ignored) acts ([], []) in
  fold_left (fun new i => if icontains used i then new else ainsert (mkAction Ignore i q no_rule) new) ignored new.

(** weak_symbols (weak_symbols.h 52-61): m_StrongToWeak and m_WeakSymbols *)
Record weak_syms := mkWeak { w_weak_for : list (item * iset); w_weak : iset }.
(** weak_symbols.cpp 36-45 *)
Definition no_weak : weak_syms := mkWeak [] [].
Definition weak_of_map (m : list (item * iset)) : weak_syms := mkWeak m [].
(** weak_symbols.h 105-114 *)
Definition weak_for_strong (i : item) (w : weak_syms) : iset := match mfind item_ltb i (w_weak_for w) with Some s => s | None => no_items end.
(** weak_symbols.cpp 60-71 *)
Definition weak_add (strong : item) (weak : iset) (w : weak_syms) : weak_syms :=
  mkWeak (mset item_ltb strong (imerge (weak_for_strong strong w) weak) (w_weak_for w)) (imerge (w_weak w) weak).
(** weak_symbols.cpp 196-211 *)
Definition has_strong (w : weak_syms) (acts : action_set) : bool :=
  existsb (fun a => on_terminal a && negb (match weak_for_strong (a_item a) w with [] => true | _ => false end)) acts.
Definition symbol_number (i : item) : Z := match i with ITerm s => s | _ => -1 end.
(** weak_symbols.cpp 216-256: the new actions, the number of actions for each weak symbol, and the
    stacks of weak and strong actions *)
Definition weak_first (w : weak_syms) (s : action_set * list (Z * Z) * list action * list action) (a : action) :=
  let '(new, used, weak, strong) := s in
  if negb (on_terminal a) then (ainsert a new, used, weak, strong)
  else if negb (icontains (w_weak w) (a_item a)) then (ainsert a new, used, weak, a :: strong)
  else match a_type a with
       | Guard => (ainsert a new, used, weak, strong)
       | _ =>
           let sym := symbol_number (a_item a) in
           (new, mset Z.ltb sym (match mfind Z.ltb sym used with Some n => n | None => 0 end + 1) used, a :: weak, strong)
       end.
(** weak_symbols.cpp 259-306 *)
Definition weak_second (s : action_set * list (Z * Z)) (a : action) : action_set * list (Z * Z) :=
  let '(new, used) := s in
  match a_type a with
  | Shift | ShiftStrong | Ignore | Accept | Guard => (ainsert a new, used)
  | Reduce | WeakReduce =>
      let sym := symbol_number (a_item a) in
      (ainsert (with_type WeakReduce a) new,
       match mfind Z.ltb sym used with
       | None => used
       | Some n => if n - 1 <? 0 then merase Z.ltb sym used else mset Z.ltb sym (n - 1) used
       end)
  | _ => (new, used)
  end.
(** weak_symbols.cpp 308-341 *)
Definition weak_third (w : weak_syms) (used : list (Z * Z)) (new : action_set) (a : action) : action_set :=
  fold_left (fun new i =>
    match i with
    | ITerm s =>
        match mfind Z.ltb s used with
        | Some _ => new
        | None => ainsert (let b := with_item i a in match a_type b with Shift => with_type ShiftStrong b | _ => b end) new
        end
    | _ => new
    end) (weak_for_strong (a_item a) w) new.
(** weak_symbols.cpp 192-345 *)
Definition weak_rewrite (w : weak_syms) : rewriter := fun q acts =>
  if negb (has_strong w acts) then acts else
  let '(new, used, weak, strong) := fold_left (weak_first w) acts ([], [], [], []) in
  let '(new, used) := fold_left weak_second weak (new, used) in
  fold_left (weak_third w used) strong new.

(** precedence_rewriter.h 45-58.  [None] stands for no_precedence. *)
Inductive associativity := Undefined_assoc | Nonassoc | Left_assoc | Right_assoc.
Section Precedence.
  (** get_precedence and get_associativity, which the classes derived from precedence_rewriter supply *)
  Context (precedence : item -> list lr0 -> option Z) (assoc : item -> list lr0 -> associativity).
  (** The items of each state *)
  Context (state_items : Z -> list lr0).
  (** precedence_rewriter.cpp 131-161, with the item itself in place of its index *)
  Fixpoint precedence_item (l : list item) (found : option item) : option item :=
    match l with
    | [] => found
    | i :: l =>
        if negb (is_terminal i) then precedence_item l found
        else match precedence i [] with
             | None => precedence_item l found
             | Some _ => match found with Some _ => None | None => precedence_item l (Some i) end
             end
    end.
  (** precedence_rewriter.cpp 164-178 and 181-195 *)
  Definition rule_precedence (r : rule) : option Z := match precedence_item (r_items r) None with Some i => precedence i [] | None => None end.
  Definition rule_associativity (r : rule) : associativity := match precedence_item (r_items r) None with Some i => assoc i [] | None => Nonassoc end.
  (** precedence_rewriter.cpp 85-93 *)
  Definition shift_items (q : Z) (i : item) : list lr0 := filter (fun k => match after_dot k with j :: _ => item_eqb j i | [] => false end) (state_items q).
  (** precedence_rewriter.cpp 62-127 *)
  Definition precedence_resolve (q : Z) (acts : action_set) (g : item * list action) : action_set :=
    let '(i, l) := g in
    match filter is_shift l, filter is_reduce l with
    | [s], [r] =>
        match precedence i (shift_items q i), rule_precedence (a_rule r) with
        | Some sp, Some rp =>
            if sp <? rp then aerase s acts
            else if rp <? sp then aerase r acts
            else match rule_associativity (a_rule r) with
                 | Right_assoc => aerase r acts
                 | Left_assoc => aerase s acts
                 | _ => acts
                 end
        | _, _ => acts
        end
    | _, _ => acts
    end.
  (** precedence_rewriter.cpp 44-128 *)
  Definition precedence_rewrite : rewriter := fun q acts => fold_left (precedence_resolve q) (group on_terminal acts) acts.
End Precedence.

(** A precedence block: for each item, its associativity and the symbols listed, as the terminal
    dictionary gives them (negative if it has none).  Items that are no terminals, or name another
    source, are taken to have been left out (precedence_block_rewriter.cpp 58-69). *)
Definition precedence_block := list (associativity * list Z).
(** precedence_block_rewriter.cpp 37-80: m_TerminalPrecedence and m_TerminalAssociativity in one map *)
Definition block_level (n : Z) (a : associativity) (symbols : list Z) (m : list (Z * (Z * associativity))) : list (Z * (Z * associativity)) :=
  fold_left (fun m s => if s <? 0 then m else mset Z.ltb s (n, match a with Left_assoc => Left_assoc | Right_assoc => Right_assoc | _ => Nonassoc end) m) symbols m.
Fixpoint block_levels (n : Z) (b : precedence_block) (m : list (Z * (Z * associativity))) : list (Z * (Z * associativity)) :=
  match b with
  | [] => m
  | (a, symbols) :: b => block_levels (n + 1) b (block_level (n + 1) a symbols m)
  end.
Definition block_map (b : precedence_block) : list (Z * (Z * associativity)) := block_levels 0 b [].
(** precedence_block_rewriter.cpp 92-106 and 115-129 *)
Definition block_precedence (b : precedence_block) (i : item) (_ : list lr0) : option Z :=
  match i with ITerm s => match mfind Z.ltb s (block_map b) with Some (n, _) => Some n | None => None end | _ => None end.
Definition block_associativity (b : precedence_block) (i : item) (_ : list lr0) : associativity :=
  match i with ITerm s => match mfind Z.ltb s (block_map b) with Some (_, a) => a | None => Nonassoc end | _ => Nonassoc end.

(** ebnf_item_attributes.h 41-53 *)
Inductive conflict_action := NotSpecified | ResolveShift | ResolveReduce | ResolveWeak.
Section Attributes.
  (** The items of the closure of each state, in the order of lr1_item_set, and rule_item_data::attributes_for *)
  Context (closure : Z -> list lr0) (attribute : rule -> nat -> conflict_action).
  (** conflict_attribute_rewriter.cpp 93-119 *)
  Definition resolution (q : Z) (i : item) : conflict_action :=
    fold_left (fun res k =>
      match after_dot k with
      | [] => res
      | j :: _ => if item_eqb j i then match attribute (l_rule k) (l_offset k) with NotSpecified => res | a => a end else res
      end) (closure q) NotSpecified.
  Definition is_any_shift (a : action) : bool := match a_type a with Shift | ShiftStrong => true | _ => false end.
  (** conflict_attribute_rewriter.cpp 122-169 *)
  Definition resolve_action (r : conflict_action) (acts : action_set) (a : action) : action_set :=
    if negb (is_any_shift a || is_reduce a) then acts
    else match r with
         | ResolveShift => if is_reduce a then aerase a acts else acts
         | ResolveReduce => if is_reduce a then acts else aerase a acts
         | ResolveWeak => if is_reduce a then ainsert (with_type WeakReduce a) (aerase a acts) else acts
         | NotSpecified => acts
         end.
  (** conflict_attribute_rewriter.cpp 64-170 *)
  Definition attribute_resolve (q : Z) (acts : action_set) (g : item * list action) : action_set :=
    let '(i, l) := g in
    if Nat.ltb (length l) 2 then acts
    else
      let shifts := length (filter is_any_shift l) in
      let reduces := length (filter is_reduce l) in
      if Nat.eqb shifts 0 || Nat.eqb reduces 0 then acts
      else
        match resolution q i with
        | NotSpecified => acts
        | r =>
            if Nat.ltb 1 reduces && negb (match r with ResolveReduce => true | _ => false end) then acts
            else fold_left (resolve_action r) l acts
        end.
  (** conflict_attribute_rewriter.cpp 45-171 *)
  Definition attribute_rewrite : rewriter := fun q acts => fold_left (attribute_resolve q) (group on_terminal acts) acts.
End Attributes.

Section Lr1.
  (** The items of each state with their lookaheads, and lalr_builder::find_lookahead_source *)
  Context (state_looks : Z -> list (lr0 * iset)) (sources : Z -> nat -> item -> list (Z * nat)).
  (** lr1_rewriter.cpp 104-123: the states where a source of the lookahead has the nonterminal of the
      rule next *)
  Definition target_states (k : lr0) (from : list (Z * nat)) : list Z :=
    fold_left (fun ts '(q, n) =>
      match nth_error (state_looks q) n with
      | None => ts
      | Some (k', _) =>
          match after_dot k' with
          | [] => ts
          | j :: _ => if item_eqb j (r_nonterminal (l_rule k)) then sins Z.ltb q ts else ts
          end
      end) from [].
  (** lr1_rewriter.cpp 84-124, for the items from number [n] on *)
  Fixpoint item_targets (q : Z) (x : item) (n : nat) (l : list (lr0 * iset)) : list (list Z) :=
    match l with
    | [] => []
    | (k, la) :: l =>
        if at_end k && icontains la x then target_states k (sources q n x) :: item_targets q x (S n) l
        else item_targets q x (S n) l
    end.
  (** lr1_rewriter.cpp 127-147 *)
  Fixpoint disjoint (used : list Z) (l : list Z) : option (list Z) :=
    match l with
    | [] => Some used
    | q :: l => if smem Z.ltb q used then None else disjoint (sins Z.ltb q used) l
    end.
  Fixpoint can_resolve (used : list Z) (l : list (list Z)) : bool :=
    match l with
    | [] => true
    | ts :: l => match disjoint used ts with None => false | Some used => can_resolve used l end
    end.
  (** lr1_rewriter.cpp 75-160.  When there is no conflict at all nothing is done (70-72), as here. *)
  Definition lr1_resolve (q : Z) (acts : action_set) (g : item * list action) : action_set :=
    let '(x, l) := g in
    if Nat.ltb (length l) 2 then acts
    else if can_resolve [] (item_targets q x 0 (state_looks q))
    then fold_left (fun acts a => ainsert (with_type WeakReduce a) (aerase a acts)) (tl l) acts
    else acts.
  (** lr1_rewriter.cpp 44-161 *)
  Definition lr1_rewrite : rewriter := fun q acts => fold_left (lr1_resolve q) (group (fun a => is_reduce a && on_terminal a) acts) acts.
End Lr1.
