(** Model of the names of unicode categories in regular expressions: match_prefix and
    unicode_for_expression (TameParse/Dfa/ndfa_regex.cpp 630-895) and the last part of compile_expression
    (950-975).  No proofs in this file. *)
From Coq Require Import String.
From Verif Require Import Base SymbolSetModel NamesModel UnicodeTables.
Local Open Scope string_scope.
Local Open Scope list_scope.
Local Open Scope Z_scope.

(** ndfa_regex.cpp 630-637: the rest of the string behind the prefix *)
Fixpoint match_prefix (prefix str : list Z) : option (list Z) :=
  match prefix, str with
  | [], _ => Some str
  | p :: prefix, c :: str => if p =? c then match_prefix prefix str else None
  | _ :: _, [] => None
  end.

(** The modifiers in the order of their tests: 727-746, 754-765, 773-784, 792-819, 827-842, 850-861,
    869-884.  Each [if] that finds its word takes it away and adds a letter. *)
Definition letter_modifiers : list (list Z * Z) := [(codes "uppercase", 117); (codes "lowercase", 108); (codes "titlecase", 116); (codes "modifier", 109); (codes "other", 111)].
Definition mark_modifiers : list (list Z * Z) := [(codes "nonspacing", 110); (codes "spacing", 99); (codes "enclosing", 101)].
Definition number_modifiers : list (list Z * Z) := [(codes "decimal", 100); (codes "letter", 108); (codes "other", 111)].
Definition punctuation_modifiers : list (list Z * Z) := [(codes "connector", 99); (codes "dash", 100); (codes "open", 115); (codes "close", 101); (codes "initial", 105); (codes "final", 102); (codes "other", 111)].
Definition symbol_modifiers : list (list Z * Z) := [(codes "math", 109); (codes "currency", 99); (codes "modifier", 107); (codes "other", 111)].
Definition separator_modifiers : list (list Z * Z) := [(codes "space", 115); (codes "line", 108); (codes "paragraph", 112)].
Definition control_modifiers : list (list Z * Z) := [(codes "control", 99); (codes "format", 102); (codes "surrogate", 115); (codes "private", 111)].
Fixpoint modifiers (ms : list (list Z * Z)) (expr result : list Z) : list Z * list Z :=
  match ms with
  | [] => (expr, result)
  | (word, letter) :: ms => match match_prefix word expr with
                            | Some rest => modifiers ms rest (result ++ [letter])
                            | None => modifiers ms expr result
                            end
  end.
(** 721-886: the classes in the order of their tests *)
Definition classes : list (list Z * Z * list (list Z * Z)) :=
  [(codes "letter", 76, letter_modifiers); (codes "mark", 77, mark_modifiers); (codes "number", 78, number_modifiers);
   (codes "punctuation", 80, punctuation_modifiers); (codes "symbol", 83, symbol_modifiers); (codes "separator", 90, separator_modifiers);
   (codes "control", 67, control_modifiers)].
Fixpoint class_of (cs : list (list Z * Z * list (list Z * Z))) (expr : list Z) : list Z * list Z :=
  match cs with
  | [] => (expr, [])
  | (word, letter, ms) :: cs =>
      match match_prefix word expr with
      | Some rest => match match_prefix [45] rest with Some rest => modifiers ms rest [letter] | None => (rest, [letter]) end
      | None => class_of cs expr
      end
  end.

(** 700-708: a character becomes a [char] *)
Definition narrow (c : Z) : Z := if 255 <? c then 46 else c mod 256.
(** 710-714 *)
Definition strip (expr : list Z) : option (list Z) :=
  match match_prefix (codes "u-") expr with
  | Some rest => Some rest
  | None => match match_prefix (codes "uni-") expr with Some rest => Some rest | None => match_prefix (codes "unicode-") expr end
  end.
(** 700-895: the empty list if the name is not that of a category *)
Definition unicode_for_expression (expression : list Z) : list Z :=
  match strip (map narrow expression) with
  | None => []
  | Some expr => match class_of classes expr with ([], result) => result | (_ :: _, _) => [] end
  end.

(** 956-969 *)
Definition symbols_of (major : Z) (minor : list Z) : symbol_set :=
  fold_left (fun s b =>
    if negb (fst (fst b) =? major) then s
    else if match minor with m :: _ => negb (snd (fst b) =? m) | [] => false end then s
    else fold_left union_range (snd b) s) blocks [].
(** 950-972 *)
Definition unicode_category (expression : list Z) : option symbol_set :=
  match unicode_for_expression expression with
  | [] => None
  | major :: minor => Some (symbols_of major minor)
  end.
