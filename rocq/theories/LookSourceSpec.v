(** Specification of where a lookahead comes from. *)
From Verif Require Import Base OrdMap GrammarModel FirstModel LrItemModel ClosureSpec BuilderSpec.
Local Open Scope Z_scope.

Section Sources.
  Context (rules : Z -> list (list item)) (first_of : item -> iset) (languages : list item).
  (** A machine whose state [q] has the kernel [kernel q] and which goes from [q] to [q'] over [y] if
      [step q y q'] *)
  Context (kernel : Z -> lr0 -> Prop) (step : Z -> item -> Z -> Prop).
  (** The items of the closure of [k] that have every lookahead that [k] has *)
  Inductive handed (k : lr0) : lr0 -> Prop :=
  | handed_self : handed k k
  | handed_on k' y rest r : handed k k' -> after_dot k' = y :: rest -> expands rules y r -> skips first_of rest -> handed k (mkLr0 (mkRule y r) 0).
  (** The lookaheads that the items of the closure of [k] have, whatever those of [k] are *)
  Definition given (k : lr0) : lr0 -> item -> Prop := closure_look rules first_of (fun k0 => k0 = k) (fun _ _ => False).
  (** The item [k] of the state [q] passes all its lookaheads on to the item [k'] of [q']; it gives [x] to
      [k'] whatever its own lookaheads are. *)
  Definition passes (q : Z) (k : lr0) (q' : Z) (k' : lr0) : Prop := exists k2 y rest, handed k k2 /\ after_dot k2 = y :: rest /\ step q y q' /\ k' = advance k2.
  Definition gives (q : Z) (k : lr0) (x : item) (q' : Z) (k' : lr0) : Prop := exists k2 y rest, given k k2 x /\ after_dot k2 = y :: rest /\ step q y q' /\ k' = advance k2.
  Notation look := (lalr_look rules first_of languages Z kernel step).
  (** The lookahead [x] reaches the item [k] of the state [q] by way of another item. *)
  Inductive by_way (x : item) (q : Z) (k : lr0) : Z -> lr0 -> Prop :=
  | by_itself : by_way x q k q k
  | by_way_of q1 k1 q2 k2 : by_way x q k q2 k2 -> kernel q1 k1 -> look q1 k1 x -> passes q1 k1 q2 k2 -> by_way x q k q1 k1.
  (** The item [k1] of the state [q1] is a source of the lookahead [x] of [k] in [q]. *)
  Definition source (x : item) (q : Z) (k : lr0) (q1 : Z) (k1 : lr0) : Prop :=
    kernel q1 k1 /\ exists q2 k2, by_way x q k q2 k2 /\ (gives q1 k1 x q2 k2 \/ (look q1 k1 x /\ passes q1 k1 q2 k2)).
  (** An item that has its lookahead from the beginning *)
  Definition begins_with (k : lr0) (x : item) : Prop := (exists l, In l languages /\ k = language_start l /\ x = IEoi) \/ (exists p l, k = guard_start p l /\ x = IEog).
End Sources.
