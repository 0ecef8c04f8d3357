(** Model of TameParse/ContextFree/terminal_dictionary (.h 43-147, .cpp 32-87).  Symbols are
    unbounded integers: the overflow of m_MaxSymbol after 2^31 symbols is not modelled. *)
From Verif Require Import Base OrdMap.
Local Open Scope Z_scope.

Definition name := list Z.
Definition name_ltb : name -> name -> bool := lex_ltb Z.ltb.

(** terminal_dictionary.h 70-83 *)
Record dict := mkDict {
  max_symbol : Z;
  name_symbol : list (name * Z);
  symbol_name : list (Z * name);
  parent_for : list (Z * Z);
  children_for : list (Z * list Z) }.
(** terminal_dictionary.cpp 32-34 *)
Definition new_dict : dict := mkDict 0 [] [] [] [].

(** terminal_dictionary.cpp 37-42 *)
Definition add_symbol (d : dict) : dict * Z :=
  (mkDict (max_symbol d + 1) (name_symbol d) (symbol_name d) (parent_for d) (children_for d), max_symbol d).
(** terminal_dictionary.cpp 45-54 *)
Definition add_named (n : name) (d : dict) : dict * Z :=
  let '(d, s) := add_symbol d in
  (mkDict (max_symbol d) (mset name_ltb n s (name_symbol d)) (mset Z.ltb s n (symbol_name d)) (parent_for d) (children_for d), s).
(** terminal_dictionary.cpp 57-64.  The result is [value], for the histories below. *)
Definition add_valued (n : name) (value : Z) (d : dict) : dict * Z :=
  (mkDict (if max_symbol d <=? value then value + 1 else max_symbol d)
     (mset name_ltb n value (name_symbol d)) (mset Z.ltb value n (symbol_name d)) (parent_for d) (children_for d), value).
(** terminal_dictionary.h 106-110 *)
Definition parent_of (s : Z) (d : dict) : Z :=
  match mfind Z.ltb s (parent_for d) with Some p => p | None => s end.
(** terminal_dictionary.h 113-118 *)
Definition children_of (s : Z) (d : dict) : list Z :=
  match mfind Z.ltb s (children_for d) with Some l => l | None => [] end.
(** terminal_dictionary.cpp 70-87 *)
Definition split_symbol (s : Z) (d : dict) : dict * Z :=
  let p := parent_of s d in
  let '(d, new) := add_symbol d in
  if 0 <=? p
  then (mkDict (max_symbol d) (name_symbol d) (symbol_name d) (mset Z.ltb new p (parent_for d))
          (mset Z.ltb p (sins Z.ltb new (children_of p d)) (children_for d)), new)
  else (d, new).
(** terminal_dictionary.h 121-137.  The recursion through the parent has no bound of its own:
    [fuel] bounds it and [None] says that it ran out. *)
Fixpoint name_for_symbol (fuel : nat) (s : Z) (d : dict) : option name :=
  match fuel with
  | O => None
  | S fuel =>
      match mfind Z.ltb s (symbol_name d) with
      | Some n => Some n
      | None => let p := parent_of s d in if p =? s then Some [] else name_for_symbol fuel p d
      end
  end.
(** terminal_dictionary.h 140-145 *)
Definition symbol_for_name (n : name) (d : dict) : Z :=
  match mfind name_ltb n (name_symbol d) with Some s => s | None => -1 end.
(** terminal_dictionary.h 101 *)
Definition count_symbols (d : dict) : Z := Z.of_nat (length (symbol_name d)).
