(** Model of the stage that makes a parser from a grammar: lr_parser_stage (TameParse/Compiler). *)
From Verif Require Import Base OrdMap GrammarModel FirstModel LrItemModel ClosureModel MachineModel BuilderModel ActionModel TableModel RewriteModel ConflictModel.
Local Open Scope Z_scope.

(** error.h 33-50: the severities that are used *)
Inductive severity := SevDetail | SevWarning | SevError | SevBug.
(** The codes of the messages *)
Inductive code := UNDEFINED_NONTERMINAL | NO_START_SYMBOLS | CONFLICT_SHIFT_REDUCE | CONFLICT_REDUCE_REDUCE | DETAIL_REDUCE | BUG_CONFLICT_NO_REDUCE | BUG_CONFLICT_NO_ACTIONS | CLASHING_GUARDS | CLASHING_GUARDS_DETAIL.
(** A message: its severity, its code, and the state, the symbol and the item that its text is about.  The
    text and the position are left out. *)
Record message := mkMessage { g_severity : severity; g_code : code; g_state : Z; g_token : item; g_item : option lr0 }.
(** The options that matter here: allow-reduce-conflicts, no-conflicts, show-conflict-details and
    enable-lr1-resolver.  An option is set when its value is not empty. *)
Record options := mkOptions { o_allow_reduce : bool; o_no_conflicts : bool; o_details : bool; o_lr1 : bool }.

(** lr_parser_stage.cpp 339-351 *)
Definition shift_reduce_severity (o : options) : severity := if o_no_conflicts o then SevError else SevWarning.
Definition reduce_reduce_severity (o : options) : severity := if o_no_conflicts o then SevError else if o_allow_reduce o then SevWarning else SevError.
(** lr_parser_stage.cpp 358-387: [first] for the first of the items *)
Fixpoint shift_messages (o : options) (f : conflict) (first : bool) (l : list lr0) : list message :=
  match l with
  | [] => []
  | k :: l =>
      (if first then [mkMessage (shift_reduce_severity o) CONFLICT_SHIFT_REDUCE (f_state f) (f_token f) (Some k)]
       else if o_details o then [mkMessage SevDetail CONFLICT_SHIFT_REDUCE (f_state f) (f_token f) (Some k)] else []) ++ shift_messages o f false l
  end.
(** lr_parser_stage.cpp 390-425.  What report_reduce_conflict adds (details on the context of a reduction,
    with show-conflict-details) is left out. *)
Fixpoint reduce_messages (o : options) (f : conflict) (first : bool) (l : list (lr0 * list lid)) : list message :=
  match l with
  | [] => []
  | (k, _) :: l =>
      (if first && match f_shift f with [] => true | _ => false end
       then mkMessage (reduce_reduce_severity o) CONFLICT_REDUCE_REDUCE (f_state f) (f_token f) (Some k)
       else mkMessage SevDetail DETAIL_REDUCE (f_state f) (f_token f) (Some k)) :: reduce_messages o f false l
  end.
(** lr_parser_stage.cpp 353-441: the messages about one conflict *)
Definition conflict_messages (o : options) (f : conflict) : list message :=
  shift_messages o f true (f_shift f) ++ reduce_messages o f true (f_reduce f) ++
  match f_reduce f, f_shift f with
  | [], [] => [mkMessage SevBug BUG_CONFLICT_NO_ACTIONS (f_state f) (f_token f) None]
  | [], _ => [mkMessage SevBug BUG_CONFLICT_NO_REDUCE (f_state f) (f_token f) None]
  | _, _ => []
  end.

Section Guards.
  (** rule_item_data::attributes_for: the attribute can-clash of a place in a rule *)
  Context (rid : rule -> Z) (can_clash : rule -> nat -> bool).
  (** lr_parser_stage.cpp 97-115: the guards that are checked for each terminal *)
  Definition checks_guard (a : action) : bool := match a_type a with Guard => is_terminal (a_item a) | _ => false end.
  Definition guards_by_symbol (acts : action_set) : list (item * iset) :=
    fold_left (fun g a => if checks_guard a then mset item_ltb (a_item a) (iinsert (r_nonterminal (a_rule a)) (match mfind item_ltb (a_item a) g with Some s => s | None => [] end)) g else g) acts [].
  (** lr_parser_stage.cpp 151-187: the items of a state where a guard is next.  [shown]: the warning for
      this symbol has been given; [aside]: the items that are kept for later *)
  Fixpoint guard_uses (q : Z) (x g : item) (kernel : list lr0) (shown : bool) (aside : list lr0) : list message * bool * list lr0 :=
    match kernel with
    | [] => ([], shown, aside)
    | k :: kernel =>
        match after_dot k with
        | [] => guard_uses q x g kernel shown aside
        | j :: _ =>
            if negb (item_eqb j g) then guard_uses q x g kernel shown aside
            else if can_clash (l_rule k) (l_offset k) then guard_uses q x g kernel shown (sins (lr0_ltb rid) k aside)
            else
              let '(ms, shown', aside) := guard_uses q x g kernel true aside in
              ((if shown then [] else [mkMessage SevWarning CLASHING_GUARDS q x (Some k)]) ++ mkMessage SevDetail CLASHING_GUARDS_DETAIL q x (Some k) :: ms, shown', aside)
        end
    end.
  (** lr_parser_stage.cpp 145-188: all the guards for a symbol *)
  Fixpoint all_uses (q : Z) (x : item) (gs : list item) (kernel : list lr0) (shown : bool) (aside : list lr0) : list message * bool * list lr0 :=
    match gs with
    | [] => ([], shown, aside)
    | g :: gs =>
        let '(ms, shown, aside) := guard_uses q x g kernel shown aside in
        let '(ms', shown, aside) := all_uses q x gs kernel shown aside in
        (ms ++ ms', shown, aside)
    end.
  (** lr_parser_stage.cpp 118-203: the symbols of a state; [warned]: warnedGuards *)
  Fixpoint guard_messages (q : Z) (kernel : list lr0) (by_symbol : list (item * iset)) (warned : iset) : list message :=
    match by_symbol with
    | [] => []
    | (x, gs) :: by_symbol =>
        if (Nat.leb (length gs) 1) || forallb (icontains warned) gs then guard_messages q kernel by_symbol warned
        else
          let '(ms, shown, aside) := all_uses q x gs kernel false [] in
          ms ++ (if shown then map (fun k => mkMessage SevDetail CLASHING_GUARDS_DETAIL q x (Some k)) aside else []) ++
          guard_messages q kernel by_symbol (fold_left (fun s g => iinsert g s) gs warned)
    end.
End Guards.

Section Stage.
  Context (rid : rule -> Z) (first_of : item -> iset) (rules : Z -> list (list item)) (busy : nat -> list item -> item -> bool) (sources : Z -> Z -> item -> list lid).
  (** rule_item_data::attributes_for *)
  Context (can_clash : rule -> nat -> bool).

  (** lr_parser_stage.cpp 311-314: m_InitialStates *)
  Fixpoint initial_states (languages : list item) (m : machine) : list Z :=
    match languages with
    | [] => []
    | l :: languages => let '(m, q) := add_initial_state rid l m in q :: initial_states languages m
    end.
  (** The actions of the states [qs] (lalr_builder::actions_for_state, which keeps the answers).  *)
  Fixpoint all_actions (fuel : nat) (m : machine) (guards : guard_states) (rewriters : list rewriter) (qs : list Z) (c : caching) : option (list action_set * caching) :=
    match qs with
    | [] => Some ([], c)
    | q :: qs =>
        match actions_for_state rid first_of rules busy fuel m guards rewriters q c with
        | None => None
        | Some (acts, c) => match all_actions fuel m guards rewriters qs c with None => None | Some (actss, c) => Some (acts :: actss, c) end
        end
    end.
  (** lr_parser_stage.cpp 93-206 *)
  Fixpoint all_guard_messages (m : machine) (q : Z) (actss : list action_set) : list message :=
    match actss with
    | [] => []
    | acts :: actss => guard_messages rid can_clash q (match state_with_id q m with Some s => st_list s | None => [] end) (guards_by_symbol acts) [] ++ all_guard_messages m (q + 1) actss
    end.
  (** What the stage leaves behind: the messages, and the machine with its guards, the initial states and the
      actions of all states, if it got as far as that *)
  Record made_parser := mkMade { d_machine : machine; d_guards : guard_states; d_initial : list Z; d_found : list conflict; d_actions : list action_set }.
  (** lr_parser_stage.cpp 308-450: from the start items on.  [rewriters]: those that are added, which may look
      at the parser.  [None]: the fuel ran out *)
  Definition make_parser (o : options) (rewriters : machine -> list rewriter) (fuel : nat) (languages : list item) : option (list message * made_parser) :=
    match complete_parser rid first_of rules busy fuel fuel (fold_left (fun m l => fst (add_initial_state rid l m)) languages new_machine) [] ([], 0%nat) with
    | None => None
    | Some (m, guards, _, c) =>
        match find_conflicts rid first_of rules busy sources fuel m guards (rewriters m) c with
        | None => None
        | Some (found, c) =>
            match all_actions fuel m guards (rewriters m) (state_ids m) c with
            | None => None
            | Some (actss, _) => Some (flat_map (conflict_messages o) found ++ all_guard_messages m 0 actss, mkMade m guards (initial_states languages new_machine) found actss)
            end
        end
    end.
  (** lr_parser_stage.cpp 272-301: the start symbols that are defined, with errors for the others *)
  Context (is_defined : Z -> bool).
  Definition start_items (starts : list Z) : list item := map INonterm (filter is_defined starts).
  Definition start_messages (starts : list Z) : list message :=
    map (fun n => mkMessage SevError UNDEFINED_NONTERMINAL 0 (INonterm n) None) (filter (fun n => negb (is_defined n)) starts).
  (** lr_parser_stage.cpp 210-465, without the checks for stages that have not been run (226-267).  The
      tables are made from the result with make_tables. *)
  Definition compile (o : options) (rewriters : machine -> list rewriter) (fuel : nat) (starts : list Z) : option (list message * option made_parser) :=
    match start_items starts with
    | [] => Some (start_messages starts ++ [mkMessage SevError NO_START_SYMBOLS 0 IEmpty None], None)
    | languages => match make_parser o rewriters fuel languages with None => None | Some (ms, d) => Some (start_messages starts ++ ms, Some d) end
    end.

  (** lr_parser_stage.cpp 303-330: the rewriters in their order.  [language]: the rewriters of the language
      (those for precedence); [weak]: the weak symbols; [closures] and [attribute]: what the rewriter for
      attributes looks at; [lr1]: the rewriter that the option enable-lr1-resolver adds; [ignored]: the
      ignored symbols *)
  Definition stage_rewriters (o : options) (language : machine -> list rewriter) (weak : weak_syms) (closures : machine -> Z -> list lr0) (attribute : rule -> nat -> conflict_action) (lr1 : machine -> rewriter) (ignored : list Z) (m : machine) : list rewriter :=
    language m ++ [weak_rewrite weak; attribute_rewrite (closures m) attribute] ++ (if o_lr1 o then [lr1 m] else []) ++
    [ignored_rewrite (fold_left (fun s i => ignored_add (ITerm i) s) ignored [])].
End Stage.
