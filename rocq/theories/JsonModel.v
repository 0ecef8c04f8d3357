(** Model of the example that formats JSON (Examples/JsonPrettyPrinter/json_format.cpp): the text written for a
    syntax tree.  Syntax trees of json.tp are values; the parser that makes them is the subject of C37 and C74.
    The overflow of the indentation after the largest [int], and characters that the stream cannot write, are
    left out. *)
From Coq Require Import String.
From Verif Require Import Base NamesModel.
Local Open Scope string_scope.
Local Open Scope list_scope.
Local Open Scope Z_scope.

(** Examples/JsonPrettyPrinter/json.tp 49-65: the syntax trees.  Strings and numbers are the text of their lexeme *)
Inductive value :=
| VString (w : str) | VNumber (w : str) | VTrue | VFalse | VNull
| VObject (ps : pairs) | VArray (vs : vals)
with pairs := PNil | PCons (name : str) (v : value) (ps : pairs)
with vals := ANil | ACons (v : value) (vs : vals).

(** json_format.cpp 56-62, after [endl] *)
Definition new_line (amount : nat) : str := 10 :: repeat 32 amount.

(** 84-102 with 64-82, 104-107 and 109-126 *)
Fixpoint print_value (n : nat) (v : value) : str :=
  match v with
  | VString w => w
  | VNumber w => w
  | VTrue => codes "true"
  | VFalse => codes "false"
  | VNull => codes "null"
  | VObject ps => codes "{" ++ match ps with PNil => [] | PCons name v ps => new_line (n + 2) ++ (name ++ codes ": " ++ print_value (n + 2 + 2) v) ++ print_pairs n ps ++ new_line n end ++ codes "}"
  | VArray vs => codes "[" ++ match vs with ANil => [] | ACons v vs => new_line (n + 2) ++ print_value (n + 2) v ++ print_vals n vs end ++ codes "]"
  end
(** 117-120 *)
with print_pairs (n : nat) (ps : pairs) : str :=
  match ps with PNil => [] | PCons name v ps => codes "," ++ new_line (n + 2) ++ (name ++ codes ": " ++ print_value (n + 2 + 2) v) ++ print_pairs n ps end
(** 75-78 *)
with print_vals (n : nat) (vs : vals) : str :=
  match vs with ANil => [] | ACons v vs => codes "," ++ new_line (n + 2) ++ print_value (n + 2) v ++ print_vals n vs end.

(** 43-45: the object at the root *)
Definition output (ps : pairs) : str := 10 :: print_value 0 (VObject ps) ++ [10].
