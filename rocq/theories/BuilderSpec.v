(** Specification of the states and lookaheads of an LALR(1) parser. *)
From Verif Require Import Base OrdMap GrammarModel FirstModel LrItemModel ClosureModel ClosureSpec.
Local Open Scope Z_scope.

Section Grammar.
  Context (rules : Z -> list (list item)) (first_of : item -> iset).
  (** The languages to recognise *)
  Context (languages : list item).

  (** E -> . L, and the start of the rule of a guard *)
  Definition language_start (l : item) : lr0 := mkLr0 (mkRule IEmpty [l]) 0.
  Definition guard_start (p : Z) (l : list item) : lr0 := mkLr0 (mkRule (IGuard p l) l) 0.

  (** The items reached from the items [kernel] over the symbol [x] *)
  Definition goto (kernel : lr0 -> Prop) (x : item) (k' : lr0) : Prop :=
    exists k rest, closure_item rules kernel k /\ after_dot k = x :: rest /\ k' = advance k.
  (** The LR(0) states, as sets of kernel items: one for each language, one for each guard that can
      come next, and those reached over a symbol *)
  Inductive lr0_state (kernel : lr0 -> Prop) : Prop :=
  | state_language l : In l languages -> (forall k, kernel k <-> k = language_start l) -> lr0_state kernel
  | state_guard from k p l rest : lr0_state from -> closure_item rules from k -> after_dot k = IGuard p l :: rest -> (forall k, kernel k <-> k = guard_start p l) -> lr0_state kernel
  | state_goto from x : lr0_state from -> x <> IEmpty -> (exists k, goto from x k) -> (forall k, kernel k <-> goto from x k) -> lr0_state kernel.

  (** The LALR(1) lookaheads, for a machine whose state [q] has the kernel [kernel q] and which goes
      from [q] to [q'] over [x] if [step q x q'].  [lalr_look q k x]: [x] is a lookahead of the item [k]
      of the closure of state [q]. *)
  Section Machine.
    Context (state : Type) (kernel : state -> lr0 -> Prop) (step : state -> item -> state -> Prop).
    Inductive lalr_look : state -> lr0 -> item -> Prop :=
    | lalr_language q l : In l languages -> kernel q (language_start l) -> lalr_look q (language_start l) IEoi
    | lalr_guard q p l : kernel q (guard_start p l) -> lalr_look q (guard_start p l) IEog
    | lalr_begins q k y rest r x : closure_item rules (kernel q) k -> after_dot k = y :: rest -> expands rules y r -> begins first_of rest x -> lalr_look q (mkLr0 (mkRule y r) 0) x
    | lalr_passed q k y rest r x : lalr_look q k x -> after_dot k = y :: rest -> expands rules y r -> skips first_of rest -> lalr_look q (mkLr0 (mkRule y r) 0) x
    | lalr_step q k y rest q' x : lalr_look q k x -> after_dot k = y :: rest -> step q y q' -> lalr_look q' (advance k) x.
  End Machine.

  (** The items of the grammar include those in the rules of its guards. *)
  Definition guards_in (u : item -> Prop) : Prop := forall p l, u (IGuard p l) -> forall j, In j l -> u j.
End Grammar.
