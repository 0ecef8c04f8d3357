(** Independent specification of symbol set expressions: mathematical sets of symbols.
    Only the record [range] is shared with the model. *)
From Verif Require Import Base SymbolSetModel.
Local Open Scope Z_scope.

(** Every way a client can build a symbol set. *)
Inductive expr :=
| EEmpty                       (* symbol_set() *)
| ERange (r : range)           (* symbol_set(range) *)
| EUnionR (e : expr) (r : range)   (* e |= range *)
| EUnion (e f : expr)              (* e |= set *)
| EExclR (e : expr) (r : range)    (* e.exclude(range) *)
| EExcl (e f : expr)               (* e.exclude(set) *)
| EAndR (e : expr) (r : range)     (* e &= range *)
| EAnd (e f : expr)                (* e &= set *)
| EInv (e : expr).                 (* e.invert() *)

(** What the code computes. *)
Fixpoint eval (e : expr) : symbol_set :=
  match e with
  | EEmpty => []
  | ERange r => [r]
  | EUnionR e r => union_range (eval e) r
  | EUnion e f => union_set (eval e) (eval f)
  | EExclR e r => exclude_range (eval e) r
  | EExcl e f => exclude_set (eval e) (eval f)
  | EAndR e r => and_range (eval e) r
  | EAnd e f => and_set (eval e) (eval f)
  | EInv e => invert (eval e)
  end.

(** What it should mean. *)
Definition in_range (x : Z) (r : range) : Prop := lo r <= x < hi r.
Definition universe (x : Z) : Prop := 0 <= x < c_MaxSymbol.

Fixpoint denote (e : expr) (x : Z) : Prop :=
  match e with
  | EEmpty => False
  | ERange r => in_range x r
  | EUnionR e r => denote e x \/ in_range x r
  | EUnion e f => denote e x \/ denote f x
  | EExclR e r => denote e x /\ ~ in_range x r
  | EExcl e f => denote e x /\ ~ denote f x
  | EAndR e r => denote e x /\ in_range x r
  | EAnd e f => denote e x /\ denote f x
  | EInv e => universe x /\ ~ denote e x
  end.

(** Client ranges: non-empty, non-negative symbols below the maximum. *)
Definition valid_range (r : range) : Prop := 0 <= lo r /\ lo r < hi r /\ hi r <= c_MaxSymbol.

Fixpoint valid (e : expr) : Prop :=
  match e with
  | EEmpty => True
  | ERange r => valid_range r
  | EUnionR e r | EExclR e r | EAndR e r => valid e /\ valid_range r
  | EUnion e f | EExcl e f | EAnd e f => valid e /\ valid f
  | EInv e => valid e
  end.

(** The normal form promised to clients iterating over a set: sorted, disjoint,
    non-touching, non-empty ranges of non-negative symbols. *)
Definition normal (s : symbol_set) : Prop :=
  Forall valid_range s /\ StronglySorted (fun a b => hi a < lo b) s.
