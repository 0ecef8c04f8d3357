(** Which guards of a language should be reported. *)
From Verif Require Import Base GrammarModel FirstModel FirstSpec LangModel.
Local Open Scope Z_scope.

(** [occurs g i]: the guard [g] is the item [i] or somewhere inside it. *)
Inductive occurs : item -> item -> Prop :=
| occurs_guard p l : occurs (IGuard p l) (IGuard p l)
| occurs_in_guard g p l i : In i l -> occurs g i -> occurs g (IGuard p l)
| occurs_in_ebnf g k rs r i : In r rs -> In i r -> occurs g i -> occurs g (IEbnf k rs).
(** The guards of a grammar *)
Definition guard_of (rules : list (Z * list (list item))) (g : item) : Prop := exists n l r i, In (n, l) rules /\ In r l /\ In i r /\ occurs g i.
(** What a guard asks for *)
Definition asks_for (g : item) (l : list item) : Prop := exists p, g = IGuard p l.
