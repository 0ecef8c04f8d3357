(** Specification for the stage that makes a parser from a grammar. *)
From Verif Require Import Base OrdMap GrammarModel FirstModel FirstSpec LrItemModel ClosureModel ClosureSpec MachineModel BuilderModel ActionModel StageModel.
Local Open Scope Z_scope.

(** Grammars for which the generator is right: the finitely many items [us], closed under the rules, are
    terminals, nonterminals and EBNF items; the conditions under which FIRST is right hold (C25). *)
Record workable (rules : Z -> list (list item)) (us : list item) (rank : item -> nat) (languages : list item) : Prop := {
  wk_items : forall i, In i us -> match i with INonterm _ | ITerm _ | IEbnf _ _ => True | _ => False end;
  wk_closed : closed rules (fun i => In i us);
  wk_plain : plain_ebnf rules (fun i => In i us);
  wk_repeat : no_empty_repeat (fun i => In i us);
  wk_ranked : left_ranked rules (fun i => In i us) rank;
  wk_last : empty_rules_last rules (fun i => In i us);
  wk_languages : forall l, In l languages -> In l us }.

(** No state both accepts and reduces at the end of the input. *)
Definition clear_end (actss : list action_set) : Prop :=
  forall acts a b, In acts actss -> In a acts -> In b acts -> a_type a = Accept -> a_type b = Reduce -> a_item a <> a_item b.
(** This is so when no start symbol is used in a rule. *)
Definition starts_unused (rules : Z -> list (list item)) (us languages : list item) : Prop :=
  forall i r l, In i us -> expands rules i r -> In l languages -> ~ In l r.

(** The messages that say that there is a conflict; all others about it are details. *)
Definition reports_conflict (g : message) : bool :=
  match g_code g with
  | CONFLICT_SHIFT_REDUCE => match g_severity g with SevDetail => false | _ => true end
  | CONFLICT_REDUCE_REDUCE => true
  | _ => false
  end.
(** The guards that the actions of a state check on the symbol [x] *)
Definition checked_on (acts : action_set) (x g : item) : Prop :=
  exists a s, In a acts /\ a_type a = Guard /\ a_item a = ITerm s /\ x = ITerm s /\ r_nonterminal (a_rule a) = g.
(** A kernel item of a state, with a guard next that may not clash, which is checked on a symbol on which
    another guard is checked too *)
Definition clashing (can_clash : rule -> nat -> bool) (acts : action_set) (kernel : list lr0) (x : item) (k : lr0) : Prop :=
  In k kernel /\ can_clash (l_rule k) (l_offset k) = false /\ exists g rest, after_dot k = g :: rest /\ checked_on acts x g /\ exists g', g' <> g /\ checked_on acts x g'.
