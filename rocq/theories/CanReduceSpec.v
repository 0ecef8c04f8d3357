(** What it means that a parser will shift its lookahead: stated over the parser's own steps. *)
From Verif Require Import Base OrdMap GrammarModel FirstModel ActionModel TableModel RunModel.
Local Open Scope Z_scope.

Section Shifts.
  Context (t : tables) (L : Type) (matched : L -> Z) (renamed : Z -> L -> L) (V : Type) (shift_value : option L -> V) (reduce_value : Z -> Z -> list V -> V).
  Notation process := (process t L matched renamed V shift_value reduce_value).

  (** The parser, run from [p], comes to a step that moves past the lookahead or accepts, and every step
      before it leaves the input as it was. *)
  Inductive will_shift : parser L V -> Prop :=
  | shift_now fuel p l p' : process fuel p = Done (More, p') -> p_input p = l :: p_input p' -> will_shift p
  | accept_now fuel p p' : process fuel p = Done (Accepted, p') -> will_shift p
  | reduce_first fuel p p' : process fuel p = Done (More, p') -> p_input p' = p_input p -> will_shift p' -> will_shift p.

  (** The parsers that can be reached from [p0] *)
  Inductive reached (p0 : parser L V) : parser L V -> Prop :=
  | reached_here : reached p0 p0
  | reached_step fuel p r p' : reached p0 p -> process fuel p = Done (r, p') -> reached p0 p'.

  (** Tables without guards, diverted states and ignored symbols: the actions for a terminal shift, reduce or
      accept; those for the end of the input reduce or accept. *)
  Record shift_reduce_tables : Prop := {
    sr_terminals : forall l e, In l (t_terminals t) -> In e l -> e_type e = Shift \/ e_type e = ShiftStrong \/ e_type e = Reduce \/ e_type e = WeakReduce \/ e_type e = Accept;
    sr_nonterminals : forall l e, In l (t_nonterminals t) -> In e l -> e_type e <> Guard;
    sr_end : forall l e, In l (t_nonterminals t) -> In e l -> e_symbol e = t_eoi t -> e_type e = Reduce \/ e_type e = WeakReduce \/ e_type e = Accept }.
End Shifts.
