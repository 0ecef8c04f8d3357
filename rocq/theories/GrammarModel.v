(** Model of the items and rules of a context-free grammar and of the identifiers a grammar
    gives them (the files item, standard_items, ebnf_items, guard, rule and grammar of
    TameParse/ContextFree). *)
From Verif Require Import Base OrdMap.
Local Open Scope Z_scope.

(** ** Items.  ebnf_items.h: the four classes derived from ebnf *)
Inductive ebnf_kind := Optional | Repeat | Alternative | RepeatZero.

(** item.h 80-246, standard_items.h, ebnf_items.h, guard.h.  An EBNF item holds rules whose
    nonterminal is the item itself (ebnf_items.cpp 41-90: "ourselves"); only their items are
    kept here.  ebnf_optional, ebnf_repeating and ebnf_repeating_optional have one rule, which
    is the first of the list.  A guard holds a priority and one rule.  The kinds of item a user
    could derive (item::other) are not modelled, nor are the keys of the items in a rule, which
    are not part of any comparison (rule.cpp 108). *)
Inductive item :=
| IEmpty
| IEoi
| IEog
| ITerm (symbol : Z)
| INonterm (symbol : Z)
| IGuard (priority : Z) (items : list item)
| IEbnf (kind : ebnf_kind) (rules : list (list item)).

(** item.h 115-168 *)
Definition kind_of (i : item) : Z :=
  match i with
  | IEmpty => 0
  | IEoi => 1
  | IEog => 2
  | ITerm _ => 3
  | INonterm _ => 4
  | IGuard _ _ => 5
  | IEbnf Optional _ => 0x100
  | IEbnf Repeat _ => 0x101
  | IEbnf Alternative _ => 0x102
  | IEbnf RepeatZero _ => 0x103
  end.

(** ** Comparisons.  rule::compare_items (rule.cpp 76-92): the lengths first, then the items one
    by one. *)
Section ListCompare.
  Context {A : Type} (cmp : A -> A -> comparison).
  Fixpoint zip_cmp (l k : list A) : comparison :=
    match l, k with
    | a :: l, b :: k => match cmp a b with Eq => zip_cmp l k | c => c end
    | _, _ => Eq
    end.
  Definition sized_cmp (l k : list A) : comparison :=
    match Nat.compare (length l) (length k) with Eq => zip_cmp l k | c => c end.
End ListCompare.

(** item::compare (item.cpp 64-99) with the operators < of the classes: standard_items.cpp 161,
    214, 258 (empty, end of input, end of guard: only the kinds are compared), guard.cpp
    136-166, ebnf_items.cpp 121-149.  The two calls a < b and b < a that compare_items makes for
    every pair of items are modelled as one three-way comparison ([item_cmp_opp] in
    GrammarProofs.v: the other order gives the opposite result).  A comparison of an object with
    itself is answered without looking at it, with the same result. *)
Fixpoint item_cmp (a b : item) : comparison :=
  match kind_of a ?= kind_of b with
  | Eq =>
      match a, b with
      | ITerm x, ITerm y => x ?= y
      | INonterm x, INonterm y => x ?= y
      | IGuard p l, IGuard q k => match p ?= q with Eq => sized_cmp item_cmp l k | c => c end
      | IEbnf _ ls, IEbnf _ ks => sized_cmp (fun l k => sized_cmp item_cmp l k) ls ks
      | _, _ => Eq
      end
  | c => c
  end.
Definition is_lt (c : comparison) : bool := match c with Lt => true | _ => false end.
Definition is_eq (c : comparison) : bool := match c with Eq => true | _ => false end.
(** item_container < (item.h 229-244) *)
Definition item_ltb (a b : item) : bool := is_lt (item_cmp a b).
(** The operators == (item.cpp 49, standard_items.cpp 156, 209, 253, guard.cpp 111-134,
    ebnf_items.cpp 93-119): the same cases as in <; terminals and nonterminals compare kind and
    symbol. *)
Definition item_eqb (a b : item) : bool :=
  match a, b with
  | ITerm x, ITerm y | INonterm x, INonterm y => x =? y
  | _, _ => (kind_of a =? kind_of b) && is_eq (item_cmp a b)
  end.

(** ** Rules.  rule.h 60-82 *)
Record rule := mkRule { r_nonterminal : item; r_items : list item }.
(** rule.cpp 95-111 *)
Definition rule_ltb (a b : rule) : bool :=
  if Nat.ltb (length (r_items a)) (length (r_items b)) then true
  else if Nat.ltb (length (r_items b)) (length (r_items a)) then false
  else if item_ltb (r_nonterminal a) (r_nonterminal b) then true
  else if item_ltb (r_nonterminal b) (r_nonterminal a) then false
  else is_lt (sized_cmp item_cmp (r_items a) (r_items b)).
(** rule.cpp 114-133 *)
Fixpoint items_eqb (l k : list item) : bool :=
  match l, k with
  | a :: l, b :: k => item_eqb a b && items_eqb l k
  | _, _ => true
  end.
Definition rule_eqb (a b : rule) : bool :=
  Nat.eqb (length (r_items a)) (length (r_items b)) && item_eqb (r_nonterminal a) (r_nonterminal b) && items_eqb (r_items a) (r_items b).

(** ** Identifiers.  grammar.h 87-107 without the rules of the nonterminals and the caches *)
Definition name := list Z.
Definition name_ltb : name -> name -> bool := lex_ltb Z.ltb.
Record ids := mkIds {
  name_nt : list (name * Z);       (* m_NameToNonterminal *)
  nt_name : list (Z * name);       (* m_NonterminalToName *)
  rule_id : list (rule * Z);       (* m_RuleIdentifiers *)
  id_rule : list (Z * rule);       (* m_RuleForIdentifier *)
  item_id : list (item * Z);       (* m_ItemIdentifiers *)
  id_item : list (Z * item) }.     (* m_ItemForIdentifier *)

(** grammar.cpp 175-189 *)
Definition identifier_for_item (i : item) (g : ids) : ids * Z :=
  match mfind item_ltb i (item_id g) with
  | Some id => (g, id)
  | None => let id := Z.of_nat (length (item_id g)) in
            (mkIds (name_nt g) (nt_name g) (rule_id g) (id_rule g) (mset item_ltb i id (item_id g)) (mset Z.ltb id i (id_item g)), id)
  end.
(** grammar.cpp 192-203 *)
Definition item_with_identifier (id : Z) (g : ids) : item :=
  match mfind Z.ltb id (id_item g) with Some i => i | None => IEmpty end.
(** grammar.cpp 145-158 *)
Definition identifier_for_rule (r : rule) (g : ids) : ids * Z :=
  match mfind rule_ltb r (rule_id g) with
  | Some id => (g, id)
  | None => let id := Z.of_nat (length (rule_id g)) in
            (mkIds (name_nt g) (nt_name g) (mset rule_ltb r id (rule_id g)) (mset Z.ltb id r (id_rule g)) (item_id g) (id_item g), id)
  end.
(** grammar.cpp 161-172 *)
Definition rule_with_identifier (id : Z) (g : ids) : rule :=
  match mfind Z.ltb id (id_rule g) with Some r => r | None => mkRule IEmpty [] end.
(** grammar.cpp 108-132 *)
Definition id_for_nonterminal (n : name) (g : ids) : ids * Z :=
  match mfind name_ltb n (name_nt g) with
  | Some id => (g, id)
  | None => let id := Z.of_nat (length (item_id g)) in
            (mkIds (minsert name_ltb n id (name_nt g)) (mset Z.ltb id n (nt_name g)) (rule_id g) (id_rule g)
                   (mset item_ltb (INonterm id) id (item_id g)) (mset Z.ltb id (INonterm id) (id_item g)), id)
  end.
(** grammar.h 141-145 *)
Definition name_for_nonterminal (id : Z) (g : ids) : name :=
  match mfind Z.ltb id (nt_name g) with Some n => n | None => [] end.
(** grammar.cpp 135-137 *)
Definition nonterminal_is_defined (n : name) (g : ids) : bool :=
  match mfind name_ltb n (name_nt g) with Some _ => true | None => false end.
(** grammar.cpp 44-47: a new grammar gives the empty item the identifier 0. *)
Definition no_ids : ids := fst (identifier_for_item IEmpty (mkIds [] [] [] [] [] [])).

(** ** rule::identifier (rule.cpp 158-168) with m_LastGrammar and m_Identifier: [cached] is the
    grammar (its address) and the identifier found there. *)
Record rule_object := mkObj { content : rule; cached : option (nat * Z) }.
Definition new_rule (nt : item) : rule_object := mkObj (mkRule nt []) None.
(** rule.cpp 136-142 *)
Definition append_item (i : item) (r : rule_object) : rule_object :=
  mkObj (mkRule (r_nonterminal (content r)) (r_items (content r) ++ [i])) (cached r).
Definition rule_identifier (address : nat) (r : rule_object) (g : ids) : rule_object * ids * Z :=
  match cached r with
  | Some (a, id) => if Nat.eqb address a then (r, g, id)
                    else let '(g, id) := identifier_for_rule (content r) g in (mkObj (content r) (Some (address, id)), g, id)
  | None => let '(g, id) := identifier_for_rule (content r) g in (mkObj (content r) (Some (address, id)), g, id)
  end.
