(** Model of LR items and of sets of LR(1) items (lr_item.cpp, lr_item.h, lr1_item_set.h of
    TameParse/Lr). *)
From Verif Require Import Base OrdMap GrammarModel FirstModel.
Local Open Scope Z_scope.

(** lr0_item (lr_item.h 62-118): a rule and an offset.  Offsets are not negative. *)
Record lr0 := mkLr0 { l_rule : rule; l_offset : nat }.
(** The items of the rule from the offset on *)
Definition after_dot (k : lr0) : list item := skipn (l_offset k) (r_items (l_rule k)).
(** lr_item.h 107 *)
Definition at_end (k : lr0) : bool := Nat.leb (length (r_items (l_rule k))) (l_offset k).
(** lr_item.cpp 63: a copy with the offset after the next item *)
Definition advance (k : lr0) : lr0 := mkLr0 (l_rule k) (S (l_offset k)).

Section Order.
  (** rule::identifier for the grammar of the items.  Identifiers are handed out at the first
      question and do not change after that (C23), so they are a function of the rule. *)
  Context (rid : rule -> Z).

  (** lr_item.cpp 81-89 *)
  Definition lr0_ltb (a b : lr0) : bool :=
    if Nat.ltb (l_offset a) (l_offset b) then true
    else if Nat.ltb (l_offset b) (l_offset a) then false
    else rid (l_rule a) <? rid (l_rule b).
  (** lr_item.cpp 92-99 *)
  Definition lr0_eqb (a b : lr0) : bool :=
    if negb (Nat.eqb (l_offset a) (l_offset b)) then false else rid (l_rule a) =? rid (l_rule b).

  (** lr1_item (lr_item.h 145-229) *)
  Definition lr1 := (lr0 * iset)%type.
  (** lr_item.cpp 167-174 and 188-194: the lookahead sets item by item *)
  Fixpoint looks_ltb (l k : iset) : bool :=
    match l, k with
    | a :: l, b :: k => if item_ltb a b then true else if negb (item_eqb a b) then false else looks_ltb l k
    | _, _ => false
    end.
  Fixpoint looks_eqb (l k : iset) : bool :=
    match l, k with
    | a :: l, b :: k => if negb (item_eqb a b) then false else looks_eqb l k
    | _, _ => true
    end.
  (** lr_item.cpp 148-178; [>] of LR(0) items is lr_item.h 113 *)
  Definition lr1_ltb (a b : lr1) : bool :=
    if lr0_ltb (fst b) (fst a) then false
    else if negb (lr0_eqb (fst a) (fst b)) then true
    else if Nat.ltb (length (snd a)) (length (snd b)) then true
    else if Nat.ltb (length (snd b)) (length (snd a)) then false
    else looks_ltb (snd a) (snd b).
  (** lr_item.cpp 181-198 *)
  Definition lr1_eqb (a b : lr1) : bool :=
    if negb (Nat.eqb (length (snd a)) (length (snd b))) then false
    else if negb (lr0_eqb (fst a) (fst b)) then false
    else looks_eqb (snd a) (snd b).
  (** lr_item.h 219-221 *)
  Definition lr1_gtb (a b : lr1) : bool := negb (lr1_ltb a b).
  Definition lr1_leb (a b : lr1) : bool := lr1_ltb a b || lr1_eqb a b.
  Definition lr1_geb (a b : lr1) : bool := negb (lr1_ltb a b) || lr1_eqb a b.

  (** lr1_item_set (lr1_item_set.h 42-139): a std::set of LR(1) items that compares only the LR(0)
      items; kept as a map from LR(0) items to lookaheads *)
  Definition lr1_set := list (lr0 * iset).
  (** lr1_item_set.h 78-118.  [eq] is the operator == of item_set, which may answer false for
      equal sets (C22_equality_refuted). *)
  Definition lr1_insert_with (eq : iset -> iset -> bool) (k : lr0) (la : iset) (s : lr1_set) : lr1_set * bool :=
    match mfind lr0_ltb k s with
    | Some old =>
        if Nat.eqb (length la) (length old) && eq la old then (s, false)
        else
          let merged := imerge old la in
          if Nat.eqb (length merged) (length old) then (s, false)
          else (minsert lr0_ltb k merged (merase lr0_ltb k s), true)
    | None => (minsert lr0_ltb k la s, true)
    end.
  Definition lr1_insert : lr0 -> iset -> lr1_set -> lr1_set * bool := lr1_insert_with looks_eqb.
  (** The lookahead of an item *)
  Definition look_of (k : lr0) (s : lr1_set) : iset := match mfind lr0_ltb k s with Some la => la | None => no_items end.
  Definition lr1_mem (k : lr0) (s : lr1_set) : bool := match mfind lr0_ltb k s with Some _ => true | None => false end.
End Order.
