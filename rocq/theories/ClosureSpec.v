(** Specification of the closure of LR items. *)
From Verif Require Import Base OrdMap GrammarModel FirstModel LrItemModel.
Local Open Scope Z_scope.

Section Grammar.
  Context (rules : Z -> list (list item)).
  Context (first_of : item -> iset).

  (** [expands i r]: [i] may be replaced by the sequence [r] in one step. *)
  Definition one_alternative (r : list item) : Prop := exists rs, r = [IEbnf Alternative rs].
  Inductive expands : item -> list item -> Prop :=
  | expands_rule n r : In r (rules n) -> expands (INonterm n) r
  | expands_none k rs : k = Optional \/ k = RepeatZero -> expands (IEbnf k rs) []
  | expands_once k rs : k = Optional \/ k = Repeat -> expands (IEbnf k rs) (nth 0 rs [])
  | expands_more k rs : k = Repeat \/ k = RepeatZero -> expands (IEbnf k rs) (IEbnf k rs :: nth 0 rs [])
  | expands_choice rs r : In r rs -> ~ one_alternative r -> expands (IEbnf Alternative rs) r
  | expands_nested rs rs' r : In [IEbnf Alternative rs'] rs -> expands (IEbnf Alternative rs') r -> expands (IEbnf Alternative rs) r.

  (** [x] can start what [l] stands for, judging by the FIRST sets *)
  Definition skips (l : list item) : Prop := forall i, In i l -> In IEmpty (first_of i).
  Definition begins (l : list item) (x : item) : Prop := exists p y q, l = p ++ y :: q /\ skips p /\ In x (first_of y) /\ x <> IEmpty.

  (** The closure of a set of LR(1) items: [kernel k] for the items, [look k x] for their lookaheads *)
  Section Closure.
    Context (kernel : lr0 -> Prop) (look : lr0 -> item -> Prop).
    Inductive closure_item : lr0 -> Prop :=
    | in_kernel k : kernel k -> closure_item k
    | in_step k y rest r : closure_item k -> after_dot k = y :: rest -> expands y r -> closure_item (mkLr0 (mkRule y r) 0).
    Inductive closure_look : lr0 -> item -> Prop :=
    | look_kernel k x : look k x -> closure_look k x
    | look_begins k y rest r x : closure_item k -> after_dot k = y :: rest -> expands y r -> begins rest x -> closure_look (mkLr0 (mkRule y r) 0) x
    | look_passed k y rest r x : closure_look k x -> after_dot k = y :: rest -> expands y r -> skips rest -> closure_look (mkLr0 (mkRule y r) 0) x.
  End Closure.

  (** The items of a grammar, without the empty item and the end of input *)
  Definition ordinary (u : item -> Prop) : Prop := forall i, u i -> i <> IEmpty /\ ~ In IEoi (first_of i) /\ forall r j, expands i r -> In j r -> u j.
End Grammar.
