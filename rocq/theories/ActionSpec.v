(** Specification of the actions of an LALR(1) parser. *)
From Verif Require Import Base OrdMap GrammarModel FirstModel LrItemModel ClosureModel ClosureSpec BuilderSpec ActionModel.
Local Open Scope Z_scope.

Section Actions.
  Context (rules : Z -> list (list item)) (first_of : item -> iset) (languages : list item).
  (** A machine *)
  Context (kernel : Z -> lr0 -> Prop) (step : Z -> item -> Z -> Prop).

  (** [x] can be the first symbol of what [l] stands for, or of something a guard at its start asks
      for *)
  Inductive can_start : list item -> item -> Prop :=
  | start_begins l x : begins first_of l x -> can_start l x
  | start_guard l p g x : begins first_of l (IGuard p g) -> can_start g x -> can_start l x.

  (** Symbols that can be the next one of the input, or stand for it: all but nonterminals and the
      like *)
  Definition input_symbol (x : item) : Prop := (exists t, x = ITerm t) \/ x = IEoi \/ x = IEog \/ exists p l, x = IGuard p l.
  (** In state [q] the rule of [k] is complete and [x] may follow *)
  Definition complete_on (q : Z) (k : lr0) (x : item) : Prop :=
    closure_item rules (kernel q) k /\ after_dot k = [] /\ lalr_look rules first_of languages Z kernel step q k x.
  (** The rules that stand for a whole language or guard *)
  Definition top_rule (r : rule) : Prop := r_nonterminal r = IEmpty \/ exists p l, r_nonterminal r = IGuard p l.

  (** The actions of the state [q]: shift a terminal or guard, go to a state for anything else,
      reduce or accept a complete rule, and check a guard that would be used *)
  Inductive lalr_action (q : Z) : action -> Prop :=
  | action_shift x t : step q x t -> (exists s, x = ITerm s) \/ (exists p l, x = IGuard p l) -> lalr_action q (mkAction Shift x t no_rule)
  | action_goto x t : step q x t -> (forall s, x <> ITerm s) -> (forall p l, x <> IGuard p l) -> lalr_action q (mkAction Goto x t no_rule)
  | action_reduce k x : complete_on q k x -> input_symbol x -> ~ top_rule (l_rule k) -> lalr_action q (mkAction Reduce x (-1) (l_rule k))
  | action_accept k x : complete_on q k x -> input_symbol x -> top_rule (l_rule k) -> lalr_action q (mkAction Accept x (-1) (l_rule k))
  | action_guard p l n s : (exists t, step q (IGuard p l) t) \/ (exists k, complete_on q k (IGuard p l)) -> (forall k, kernel n k <-> k = guard_start p l) -> can_start l (ITerm s) ->
      lalr_action q (mkAction Guard (ITerm s) n (mkRule (IGuard p l) l)).
End Actions.
