(** Specification of the conflicts of a parser. *)
From Verif Require Import Base OrdMap GrammarModel FirstModel LrItemModel ClosureSpec BuilderSpec ActionModel ActionSpec.
Local Open Scope Z_scope.

(** The actions that cannot stand beside another one for the same symbol: shifts and reductions that
    are not tentative.  Guards and weak reductions are tried first and given up if they fail. *)
Definition decisive (a : action) : Prop := a_type a = Shift \/ a_type a = ShiftStrong \/ a_type a = Divert \/ a_type a = Reduce.
(** Two decisive actions for the symbol [x], among the actions [has] *)
Definition clash (has : action -> Prop) (x : item) : Prop :=
  exists a b, has a /\ has b /\ a <> b /\ a_item a = x /\ a_item b = x /\ decisive a /\ decisive b.
(** The same for actions that have not been rewritten: a shift and a reduction, or two reductions *)
Definition shift_reduce (has : action -> Prop) (x : item) : Prop :=
  exists a b, has a /\ has b /\ a_item a = x /\ a_item b = x /\ a_type a = Shift /\ a_type b = Reduce.
Definition reduce_reduce (has : action -> Prop) (x : item) : Prop :=
  exists a b, has a /\ has b /\ a <> b /\ a_item a = x /\ a_item b = x /\ a_type a = Reduce /\ a_type b = Reduce.

Section Reasons.
  Context (rules : Z -> list (list item)) (first_of : item -> iset) (languages : list item).
  Context (kernel : Z -> lr0 -> Prop) (step : Z -> item -> Z -> Prop).
  (** The items of a state that lead to a shift of [x]: what comes next can start with [x] *)
  Definition shift_reason (q : Z) (x : item) (k : lr0) : Prop := closure_item rules (kernel q) k /\ exists i rest, after_dot k = i :: rest /\ In x (first_of i).
  (** The items of a state that lead to a reduction on [x] *)
  Definition reduce_reason (q : Z) (x : item) (k : lr0) : Prop := complete_on rules first_of languages kernel step q k x.
End Reasons.
