(** Specification of the unicode categories of regular expressions: the documented names (the comment in
    TameParse/Dfa/ndfa_regex.cpp 640-699) and the types of characters they stand for. *)
From Coq Require Import String.
From Verif Require Import Base SymbolSetModel SymbolSetSpec NamesModel UnicodeTables.
Local Open Scope string_scope.
Local Open Scope list_scope.
Local Open Scope Z_scope.

(** The types of characters: pairs of letters, such as Lu *)
Definition has_type (ty : Z * Z) (x : Z) : Prop := exists rs r, In (ty, rs) blocks /\ In r rs /\ lo r <= x < hi r.

Definition name_starts : list (list Z) := [codes "u-"; codes "uni-"; codes "unicode-"].
(** Names (behind one of the starts), with the first letter of the types, and the second one unless all
    types with this first letter are meant *)
Definition documented : list (list Z * Z * option Z) :=
  [ (codes "letter", 76, None);                          (* L *)
    (codes "letter-uppercase", 76, Some 117);            (* Lu *)
    (codes "letter-lowercase", 76, Some 108);            (* Ll *)
    (codes "letter-titlecase", 76, Some 116);            (* Lt *)
    (codes "letter-modifier", 76, Some 109);             (* Lm *)
    (codes "letter-other", 76, Some 111);                (* Lo *)
    (codes "mark", 77, None);                            (* M *)
    (codes "mark-nonspacing", 77, Some 110);             (* Mn *)
    (codes "mark-spacing", 77, Some 99);                 (* Mc *)
    (codes "mark-enclosing", 77, Some 101);              (* Me *)
    (codes "number", 78, None);                          (* N *)
    (codes "number-decimal", 78, Some 100);              (* Nd *)
    (codes "number-letter", 78, Some 108);               (* Nl *)
    (codes "number-other", 78, Some 111);                (* No *)
    (codes "punctuation", 80, None);                     (* P *)
    (codes "punctuation-connector", 80, Some 99);        (* Pc *)
    (codes "punctuation-dash", 80, Some 100);            (* Pd *)
    (codes "punctuation-open", 80, Some 115);            (* Ps *)
    (codes "punctuation-close", 80, Some 101);           (* Pe *)
    (codes "punctuation-initial", 80, Some 105);         (* Pi *)
    (codes "punctuation-final", 80, Some 102);           (* Pf *)
    (codes "punctuation-other", 80, Some 111);           (* Po *)
    (codes "symbol", 83, None);                          (* S *)
    (codes "symbol-math", 83, Some 109);                 (* Sm *)
    (codes "symbol-currency", 83, Some 99);              (* Sc *)
    (codes "symbol-modifier", 83, Some 107);             (* Sk *)
    (codes "symbol-other", 83, Some 111);                (* So *)
    (codes "separator", 90, None);                       (* Z *)
    (codes "separator-space", 90, Some 115);             (* Zs *)
    (codes "separator-line", 90, Some 108);              (* Zl *)
    (codes "separator-paragraph", 90, Some 112);         (* Zp *)
    (codes "control", 67, None);                         (* C *)
    (codes "control-control", 67, Some 99);              (* Cc *)
    (codes "control-format", 67, Some 102);              (* Cf *)
    (codes "control-surrogate", 67, Some 115);           (* Cs *)
    (codes "control-private", 67, Some 111) ].           (* Co *)
(** The characters a documented name stands for *)
Definition in_category (major : Z) (minor : option Z) (x : Z) : Prop :=
  exists ty, has_type ty x /\ fst ty = major /\ match minor with Some m => snd ty = m | None => True end.
Definition is_category (name : list Z) (major : Z) (minor : option Z) : Prop :=
  exists start rest, name = start ++ rest /\ In start name_starts /\ In (rest, major, minor) documented.
