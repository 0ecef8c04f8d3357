(** Model of the item keys of rules (TameParse/ContextFree/rule.cpp) and of
    TameParse/Compiler/Data/rule_item_data.cpp.  No proofs in this file. *)
From Verif Require Import Base OrdMap.
Local Open Scope Z_scope.

Section RuleData.
  (** [attrs] is yy_language::ebnf_item_attributes; [default] is s_DefaultAttributes,
      rule_item_data.cpp 70. *)
  Context {attrs : Type} (default : attrs).

  (** The rule objects of the program, each with its m_ItemKeys (rule.h 71; the items
      themselves play no part), and one rule_item_data object (rule_item_data.h 56-59;
      m_NextKey is an int, unbounded here). *)
  Record world := mkW { w_rules : list (list Z); w_next : Z; w_attrs : list (Z * attrs) }.

  Fixpoint upd_at {X} (k : nat) (f : X -> X) (l : list X) : list X :=
    match l, k with
    | [], _ => []
    | x :: t, O => f x :: t
    | x :: t, S k => x :: upd_at k f t
    end.

  Definition keys_of (w : world) (r : nat) : list Z := nth r (w_rules w) [].
  Definition with_rules (w : world) (l : list (list Z)) : world := mkW l (w_next w) (w_attrs w).

  Inductive rop :=
  | RNew                       (** rule.cpp 34-60: a rule without items *)
  | RAppend (r : nat)          (** operator<<(item_container), rule.cpp 136-142 *)
  | RAppendRule (dst src : nat) (** operator<<(rule), rule.cpp 146-152 *)
  | RCopy (src : nat)          (** copy constructors, rule.cpp 40-52 *)
  | RAssign (dst src : nat)    (** operator=, rule.cpp 67-74 *)
  | RSet (r i : nat) (a : attrs). (** set_attributes *)

  (** rule_item_data.cpp 40-68 (both overloads), with get_key and set_key, rule.cpp 172-179 *)
  Definition set_attributes (w : world) (r i : nat) (a : attrs) : world :=
    let key := nth i (keys_of w r) 0 in
    if key <=? 0 then
      let key := w_next w in
      mkW (upd_at r (upd_at i (fun _ => key)) (w_rules w)) (key + 1) (mset Z.ltb key a (w_attrs w))
    else mkW (w_rules w) (w_next w) (mset Z.ltb key a (w_attrs w)).

  (** rule_item_data.cpp 73-106 (both overloads) *)
  Definition attributes_for (w : world) (r i : nat) : attrs :=
    let key := nth i (keys_of w r) 0 in
    if key <=? 0 then default
    else match mfind Z.ltb key (w_attrs w) with Some a => a | None => default end.

  (** [None]: an item index outside the rule, a rule that does not exist, or a rule appended
      to itself (which pushes onto the vector it iterates over). *)
  Definition rstep (w : world) (o : rop) : option world :=
    let n := length (w_rules w) in
    match o with
    | RNew => Some (with_rules w (w_rules w ++ [[]]))
    | RAppend r => if Nat.ltb r n then Some (with_rules w (upd_at r (fun l => l ++ [0]) (w_rules w))) else None
    | RAppendRule dst src =>
        if (Nat.ltb dst n && Nat.ltb src n && negb (Nat.eqb dst src))%bool
        then Some (with_rules w (upd_at dst (fun l => l ++ keys_of w src) (w_rules w))) else None
    | RCopy src => if Nat.ltb src n then Some (with_rules w (w_rules w ++ [keys_of w src])) else None
    | RAssign dst src =>
        if (Nat.ltb dst n && Nat.ltb src n)%bool
        then Some (with_rules w (upd_at dst (fun _ => keys_of w src) (w_rules w))) else None
    | RSet r i a =>
        if (Nat.ltb r n && Nat.ltb i (length (keys_of w r)))%bool then Some (set_attributes w r i a) else None
    end.

  Fixpoint rrun (w : world) (ops : list rop) : option world :=
    match ops with
    | [] => Some w
    | o :: t => match rstep w o with Some w => rrun w t | None => None end
    end.

  (** rule_item_data.cpp 35-37, no rules yet *)
  Definition start : world := mkW [] 1 [].
End RuleData.
