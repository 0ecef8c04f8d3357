(** Specification of parse trees that respect the precedence and associativity of operators. *)
From Verif Require Import Base GrammarModel FirstModel LrItemModel ClosureSpec BuilderSpec ActionModel ActionSpec RunModel RunSpec RewriteModel RewriteSpec.
Local Open Scope Z_scope.

Section Trees.
  Context {L : Type}.
  (** [inside t s after]: the tree [s] is in [t], and is followed there by the leaves [after]. *)
  Inductive inside : ast L -> ast L -> list (option L) -> Prop :=
  | inside_self t : inside t t []
  | inside_child n r before c behind s after : inside c s after -> inside (Node n r (before ++ c :: behind)) s (after ++ flat_map (leaves L) behind).
  (** [leftmost t s]: [s] is [t], or its first child, or the first child of that, and so on. *)
  Inductive leftmost : ast L -> ast L -> Prop :=
  | leftmost_self t : leftmost t t
  | leftmost_first n r c ts s : leftmost c s -> leftmost (Node n r (c :: ts)) s.
End Trees.

Section Operators.
  (** The rules, and the parser's machine *)
  Context (rules : Z -> list (list item)) (first_of : item -> iset) (languages : list item) (kernel : Z -> lr0 -> Prop) (step : Z -> item -> Z -> Prop).
  (** [D s x]: the symbol [x] is declared as a weak version of [s] *)
  Context (D : Z -> Z -> Prop) (b : precedence_block).
  (** The rules x -> a x, where [a] has the operator [o1] on the level [k], and x -> x o c with the operator
      [o] on the level [n]: what follows "a x o c" can be read in two ways.  The operator [o] has no weak
      version and is none, and no other rule could be reduced in place of the first. *)
  Record operators (x : item) (a : list item) (o1 : Z) (k : nat) (ka : associativity) (o : Z) (c : list item) (n : nat) : Prop := {
    op_ends : expands rules x (a ++ [x]);
    op_starts : expands rules x (x :: ITerm o :: c);
    op_symbols : 0 <= o1 /\ 0 <= o;
    op_first : exists before after, a ++ [x] = before ++ ITerm o1 :: after /\ forall s, In (ITerm s) (before ++ after) -> forall n' a', 0 <= s -> ~ last_level b s n' a';
    op_level1 : last_level b o1 k ka;
    op_level : exists na, last_level b o n na;
    op_plain : forall s, ~ D o s /\ ~ D s o;
    op_alone : forall q k1 k2, l_rule k1 = mkRule x (a ++ [x]) -> complete_on rules first_of languages kernel step q k1 (ITerm o) -> complete_on rules first_of languages kernel step q k2 (ITerm o) -> l_rule k2 = l_rule k1 }.
End Operators.
(** Of the two operators [o1], on the level [k] with the associativity [ka], and [o] on the level [n]: does
    the one on the right go first? *)
Definition right_first_of (k : nat) (ka : associativity) (n : nat) : Prop := (k < n)%nat \/ (k = n /\ ka = Right_assoc).
Definition left_first_of (k : nat) (ka : associativity) (n : nat) : Prop := (n < k)%nat \/ (k = n /\ ka = Left_assoc).
