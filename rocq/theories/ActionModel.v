(** Model of the parser actions of a state: lr_action (lr_action.h, lr_action.cpp), guard::initial
    (guard.cpp 169-203), lalr_builder::add_guard and actions_for_state (lalr_builder.cpp 424-545). *)
From Verif Require Import Base OrdMap GrammarModel FirstModel LrItemModel ClosureModel MachineModel BuilderModel.
Local Open Scope Z_scope.

(** lr_action.h 62-114 *)
Inductive action_type := Shift | ShiftStrong | Ignore | Reduce | WeakReduce | Accept | Goto | Divert | Guard.
(** The values of the enumeration *)
Definition type_number (t : action_type) : Z :=
  match t with Shift => 0 | ShiftStrong => 1 | Ignore => 2 | Reduce => 3 | WeakReduce => 4 | Accept => 5 | Goto => 6 | Divert => 7 | Guard => 8 end.
(** lr_action.h 116-127 *)
Record action := mkAction { a_type : action_type; a_item : item; a_next : Z; a_rule : rule }.
(** lr_action.cpp 33-45: actions without a rule have the empty rule *)
Definition no_rule : rule := mkRule IEmpty [].
(** lr_action.h 146-156 *)
Definition action_ltb (a b : action) : bool :=
  if item_ltb (a_item a) (a_item b) then true
  else if item_ltb (a_item b) (a_item a) then false
  else if type_number (a_type a) <? type_number (a_type b) then true
  else if type_number (a_type b) <? type_number (a_type a) then false
  else if a_next a <? a_next b then true
  else if a_next b <? a_next a then false
  else rule_ltb (a_rule a) (a_rule b).
(** lr_action_set (lr_action.h 205): a std::set *)
Definition action_set := list action.
Definition ainsert (a : action) (s : action_set) : action_set := sins action_ltb a s.

Section Builder.
  Context (rid : rule -> Z) (first_of : item -> iset) (rules : Z -> list (list item)) (busy : nat -> list item -> item -> bool).

  (** grammar::first_for_rule (grammar.cpp 256-281), with the answers of grammar::first *)
  Fixpoint items_first (l : list item) (result : iset) : iset :=
    match l with
    | [] => iinsert IEmpty result
    | i :: l => let result := imerge (ierase IEmpty result) (first_of i) in if icontains result IEmpty then items_first l result else result
    end.
  Definition rule_first (l : list item) : iset := match l with [] => [IEmpty] | _ => items_first l [] end.
  (** guard.cpp 169-203: the guards in the set are put on a stack, so the last one is merged first.
      [fuel] bounds the depth of the recursion. *)
  Definition is_guard (i : item) : bool := match i with IGuard _ _ => true | _ => false end.
  Fixpoint merge_all (rec : item -> option iset) (gs : list item) (res : iset) : option iset :=
    match gs with
    | [] => Some res
    | g :: gs => match rec g with None => None | Some s => merge_all rec gs (imerge res s) end
    end.
  Definition guard_items (i : item) : list item := match i with IGuard _ l => l | _ => [] end.
  Fixpoint initial (fuel : nat) (i : item) : option iset :=
    match fuel with
    | O => None
    | S fuel => let res := rule_first (guard_items i) in merge_all (initial fuel) (rev (filter is_guard res)) res
    end.

  (** lalr_builder.cpp 426-447 *)
  Definition guard_checks (n : Z) (r : rule) (init : iset) (s : action_set) : action_set :=
    fold_left (fun s x => match x with ITerm _ => ainsert (mkAction Guard x n r) s | _ => s end) init s.
  Definition add_guard (fuel : nat) (guards : guard_states) (i : item) (s : action_set) : option action_set :=
    match guard_rule i with
    | None => Some s
    | Some r =>
        match mfind Z.ltb (rid r) guards with
        | None => Some s
        | Some n => match initial fuel i with None => None | Some init => Some (guard_checks n r init s) end
        end
    end.
  (** lalr_builder.cpp 471-481 *)
  Fixpoint transition_guards (fuel : nat) (guards : guard_states) (ts : list (item * Z)) (s : action_set) : option action_set :=
    match ts with
    | [] => Some s
    | (i, _) :: ts => match add_guard fuel guards i s with None => None | Some s => transition_guards fuel guards ts s end
    end.
  (** lalr_builder.cpp 483-497 *)
  Definition move_type (i : item) : action_type := match i with ITerm _ | IGuard _ _ => Shift | _ => Goto end.
  Definition add_moves (ts : list (item * Z)) (s : action_set) : action_set :=
    fold_left (fun s '(i, t) => ainsert (mkAction (move_type i) i t no_rule) s) ts s.
  (** lalr_builder.cpp 507-513 *)
  Definition reduce_type (r : rule) : action_type := match r_nonterminal r with IEmpty | IGuard _ _ => Accept | _ => Reduce end.
  (** lalr_builder.cpp 515-535 *)
  Definition reduces_on (x : item) : bool := match x with ITerm _ | IEoi | IEog | IGuard _ _ => true | _ => false end.
  Fixpoint add_reduces (fuel : nat) (guards : guard_states) (r : rule) (la : iset) (s : action_set) : option action_set :=
    match la with
    | [] => Some s
    | x :: la =>
        if reduces_on x then
          match add_guard fuel guards x s with
          | None => None
          | Some s => add_reduces fuel guards r la (ainsert (mkAction (reduce_type r) x (-1) r) s)
          end
        else add_reduces fuel guards r la s
    end.
  (** lalr_builder.cpp 499-537 *)
  Fixpoint add_reductions (fuel : nat) (guards : guard_states) (closure : lr1_set) (s : action_set) : option action_set :=
    match closure with
    | [] => Some s
    | (k, la) :: closure =>
        if at_end k then
          match add_reduces fuel guards (l_rule k) la s with
          | None => None
          | Some s => add_reductions fuel guards closure s
          end
        else add_reductions fuel guards closure s
    end.
  (** lalr_builder.cpp 452-537: the actions before they are rewritten.  [None]: not a state, or the
      fuel ran out. *)
  Definition plain_actions (fuel : nat) (m : machine) (guards : guard_states) (q : Z) (c : caching) : option (action_set * caching) :=
    match state_with_id q m with
    | None => None
    | Some s =>
        match generate_closure rid first_of rules busy fuel fuel (kernel_items s) c with
        | None => None
        | Some (closure, c) =>
            match transition_guards fuel guards (transitions_for_state q m) [] with
            | None => None
            | Some acts =>
                match add_reductions fuel guards closure (add_moves (transitions_for_state q m) acts) with
                | None => None
                | Some acts => Some (acts, c)
                end
            end
        end
    end.
  (** lalr_builder.cpp 452-546, without the cache of the results (m_ActionsForState: AskModel.v).  A rewriter
      changes the actions of a state. *)
  Definition rewriter := Z -> action_set -> action_set.
  Definition actions_for_state (fuel : nat) (m : machine) (guards : guard_states) (rewriters : list rewriter) (q : Z) (c : caching) : option (action_set * caching) :=
    match plain_actions fuel m guards q c with
    | None => None
    | Some (acts, c) => Some (fold_left (fun s w => w q s) rewriters acts, c)
    end.
End Builder.
