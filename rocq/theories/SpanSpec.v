(** What a position of a definition object ought to be. *)

From Coq Require Import List ZArith Bool.
From Verif Require Import DefCopyModel SpanModel.
Import ListNotations.
Local Open Scope Z_scope.

(** A place comes before another one, or is the same. *)
Definition upto (a b : pos) : Prop :=
  p_line a < p_line b
  \/ (p_line a = p_line b /\ p_column a < p_column b)
  \/ (p_line a = p_line b /\ p_column a = p_column b /\ p_offset a <= p_offset b).

Definition proper (w : span) : Prop := upto (s_start w) (s_end w).
Definition inside (n w : span) : Prop := upto (s_start w) (s_start n) /\ upto (s_end n) (s_end w).

(** Every part of an object lies inside it, and so on down. *)
Inductive covering : shape -> Prop :=
| Covering : forall w parts, Forall (fun p => inside (span_of p) w) parts -> Forall covering parts -> covering (Shape w parts).

(** Every part of a syntax tree lies inside it. *)
Definition place_simple (x : simple) : span :=
  match x with Symbol w => w | GuardOf w _ => w | Suffix w _ => w | Paren w _ => w end.
Definition place_ebnf (e : ebnf) : span := let '(Ebnf w _ _) := e in w.

Inductive nested : simple -> Prop :=
| nested_symbol : forall w, proper w -> nested (Symbol w)
| nested_guard : forall w e, proper w -> inside (place_ebnf e) w -> nested_ebnf e -> nested (GuardOf w e)
| nested_suffix : forall w x, proper w -> inside (place_simple x) w -> nested x -> nested (Suffix w x)
| nested_paren : forall w e, proper w -> inside (place_ebnf e) w -> nested_ebnf e -> nested (Paren w e)
with nested_ebnf : ebnf -> Prop :=
| nested_items : forall w items a, proper w ->
    Forall (fun x => inside (place_simple x) w) items -> (forall x, In x items -> nested x) ->
    (forall e, a = Some e -> inside (place_ebnf e) w) -> (forall e, a = Some e -> nested_ebnf e) ->
    nested_ebnf (Ebnf w items a).

(** The block that a top level block holds lies in it. *)
Definition holds (t : toplevel) : list span :=
  match o_language t with None => [] | Some l => [b_span l] end
  ++ match o_import t with None => [] | Some i => [m_span i] end
  ++ match o_parser t with None => [] | Some p => [r_span p] end
  ++ match o_tests t with None => [] | Some k => [k_span k] end.

(** Parts in the order of the text, none of them empty. *)
Fixpoint in_order (n : span) (l : list span) : Prop :=
  upto (s_start n) (s_end n) /\ s_start n <> s_end n
  /\ match l with [] => True | m :: r => upto (s_end n) (s_start m) /\ in_order m r end.

(** A span is the least one around some blocks: it starts where one of them
    starts, ends where one of them ends, and they all lie inside. *)
Definition least_around (w : span) (l : list span) : Prop :=
  In (s_start w) (map s_start l) /\ In (s_end w) (map s_end l) /\ Forall (fun n => inside n w) l.
