(** The orders of lexemes, syntax trees, accepting actions, parser states and
    conflicts, which sets and maps of them rely on.

    Simplification: the tests whether two objects are the same object are left
    out where the comparison gives the same answer for it. *)

From Verif Require Import Base OrdMap DefCopyModel GrammarModel FirstModel LrItemModel BuilderModel.
Local Open Scope Z_scope.

(** TameParse/Dfa/lexeme.h 47-54. *)
Record lexeme := mkWord { w_matched : Z; w_symbols : list Z; w_pos : pos }.

(** TameParse/Dfa/lexeme.cpp 73-83: operator<.  The operators of the strings
    are those of the C++ library: the first symbol that differs decides, then
    the length. *)
Definition lexeme_ltb (a b : lexeme) : bool :=
  if w_matched a <? w_matched b then true
  else if w_matched b <? w_matched a then false
  else if lex_ltb Z.ltb (w_symbols a) (w_symbols b) then true
  else if lex_ltb Z.ltb (w_symbols b) (w_symbols a) then false
  else if pos_ltb (w_pos a) (w_pos b) then true
  else false.

(** TameParse/Dfa/lexeme.h 92-98: compare, for pointers that may be NULL. *)
Definition pointer_ltb {A} (ltb : A -> A -> bool) (a b : option A) : bool :=
  match a, b with
  | None, None => false
  | None, Some _ => true
  | Some _, None => false
  | Some x, Some y => ltb x y
  end.

(** TameParse/Util/astnode.h 48-58.  The rule of a node made from a lexeme is
    never set (astnode.cpp 49-52): [None]. *)
Inductive node := Node (id : Z) (rule : option Z) (word : option lexeme) (children : list node).

(** TameParse/Util/astnode.cpp 64-79: operator<, for the two nodes in both
    orders at once: the first value is [a < b], the second [b < a].  Children
    are not NULL. *)
Fixpoint both (a b : node) {struct a} : bool * bool :=
  let '(Node i _ l cs) := a in
  let '(Node i' _ l' cs') := b in
  let less := (i <? i') || pointer_ltb lexeme_ltb l l' in
  let more := (i' <? i) || pointer_ltb lexeme_ltb l' l in
  let shorter := Nat.ltb (length cs) (length cs') in
  let longer := Nat.ltb (length cs') (length cs) in
  let loop := (fix go (l l' : list node) {struct l} : bool * bool :=
    match l, l' with
    | x :: r, y :: r' =>
        let '(p, q) := both x y in
        (if p then true else if q then false else fst (go r r'),
         if q then true else if p then false else snd (go r r'))
    | _, _ => (false, false)
    end) cs cs' in
  (if less then true else if more then false else if shorter then true else if longer then false else fst loop,
   if more then true else if less then false else if longer then true else if shorter then false else snd loop).

Definition node_ltb (a b : node) : bool := fst (both a b).

(** TameParse/Dfa/accept_action.h 41-44 and TameParse/Compiler/lexer_stage.cpp
    48-51: the accepting actions of the library and those of the lexer
    stage. *)
Inductive accept := Plain (symbol : Z) (eager : bool) | OfLanguage (symbol : Z) (unit_type : Z) (weak : bool).

(** TameParse/Dfa/accept_action.cpp 67-69 and
    TameParse/Compiler/lexer_stage.cpp 69-89: operator<. *)
Definition accept_ltb (a b : accept) : bool :=
  match a, b with
  | Plain s _, Plain s' _ => s' <? s
  | Plain s _, OfLanguage s' _ _ => s' <? s
  | OfLanguage _ _ _, Plain _ _ => true
  | OfLanguage s t w, OfLanguage s' t' w' =>
      if negb (Bool.eqb w' w) then (if w' then true else false)
      else if t' <? t then true
      else if t <? t' then false
      else s' <? s
  end.

Section States.
  (** The numbers of the rules, as for [lr0_ltb]. *)
  Context (rid : rule -> Z).

  (** TameParse/Lr/lr_state.h 128-145: operator< of states, which are lists of
      items; lalr_state.cpp 53-56 uses it. *)
  Fixpoint items_ltb (l k : list lr0) : bool :=
    match l, k with
    | a :: l, b :: k => if lr0_ltb rid a b then true else if lr0_ltb rid b a then false else items_ltb l k
    | _, _ => false
    end.
  Definition state_ltb (a b : list lr0) : bool :=
    if Nat.ltb (length a) (length b) then true
    else if Nat.ltb (length b) (length a) then false
    else items_ltb a b.

  (** TameParse/Lr/conflict.h 82-98. *)
  Record conflict := mkConflict { c_state : Z; c_token : item; c_shift : list lr0; c_reduce : list (lr0 * list lid) }.

  (** The order of [std::pair], which the comparison of maps uses. *)
  Definition entry_ltb (a b : lr0 * list lid) : bool :=
    if lr0_ltb rid (fst a) (fst b) then true
    else if lr0_ltb rid (fst b) (fst a) then false
    else lex_ltb lid_ltb (snd a) (snd b).

  (** TameParse/Lr/conflict.cpp 66-79: operator<. *)
  Definition conflict_ltb (a b : conflict) : bool :=
    if c_state a <? c_state b then true
    else if c_state b <? c_state a then false
    else if item_ltb (c_token a) (c_token b) then true
    else if item_ltb (c_token b) (c_token a) then false
    else if lex_ltb (lr0_ltb rid) (c_shift a) (c_shift b) then true
    else if lex_ltb (lr0_ltb rid) (c_shift b) (c_shift a) then false
    else if lex_ltb entry_ltb (c_reduce a) (c_reduce b) then true
    else false.
End States.
