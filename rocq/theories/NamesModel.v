(** Model of the names in generated C++ source: identifiers (Compiler/OutputStages/cplusplus.cpp 80-164),
    the constants for the symbols of a language (310-390), the names of its classes (167-212) and the names
    of items and of the parts of a rule (Compiler/output_stage.cpp 290-511).  Strings are lists of
    character codes; wide characters are converted to narrow ones by (char) only where they are letters or
    digits. *)
From Coq Require Import String Ascii Decimal DecimalNat.
From Verif Require Import Base GrammarModel.
Local Open Scope Z_scope.

Definition str := list Z.
Definition codes (s : string) : str := map (fun c => Z.of_N (N_of_ascii c)) (list_ascii_of_string s).
Definition str_eq_dec : forall a b : str, {a = b} + {a <> b} := list_eq_dec Z.eq_dec.
Definition str_eqb (a b : str) : bool := if str_eq_dec a b then true else false.
Definition used (name : str) (names : list str) : bool := existsb (str_eqb name) names.

(** operator<< of a stream for an integer that is not negative *)
Fixpoint uint_codes (u : uint) : str :=
  match u with
  | Nil => []
  | D0 u => 48 :: uint_codes u | D1 u => 49 :: uint_codes u | D2 u => 50 :: uint_codes u | D3 u => 51 :: uint_codes u | D4 u => 52 :: uint_codes u
  | D5 u => 53 :: uint_codes u | D6 u => 54 :: uint_codes u | D7 u => 55 :: uint_codes u | D8 u => 56 :: uint_codes u | D9 u => 57 :: uint_codes u
  end.
Definition digits (n : nat) : str := uint_codes (Nat.to_uint n).

(** ** Identifiers *)
(** cplusplus.cpp 113-159: the characters other than letters and digits.  [alone]: the name has one
    character *)
Definition spelled (alone : bool) (c : Z) : str :=
  match c with
  | 60 => codes "_lessthan_" | 62 => codes "_greaterthan_" | 39 => codes "_quote_" | 34 => codes "_doublequote_"
  | 38 => codes "_ampersand_" | 58 => codes "_colon_" | 61 => codes "_equals_" | 33 => codes "_exclamation_"
  | 64 => codes "_at_" | 35 => codes "_hash_" | 36 => codes "_dollar_" | 37 => codes "_percent_"
  | 94 => codes "_cicumflex_" | 42 => codes "_star_" | 40 => codes "_openparen_" | 41 => codes "_closeparen_"
  | 43 => codes "_plus_" | 47 => codes "_slash_" | 92 => codes "_backslash_" | 124 => codes "_pipe_"
  | 59 => codes "_semicolon_" | 46 => codes "_dot_" | 44 => codes "_comma_" | 63 => codes "_question_"
  | 126 => codes "_tilde_" | 95 => codes "_" | 123 => codes "_opencurly_" | 125 => codes "_closecurly_"
  | 91 => codes "_opensquare_" | 93 => codes "_closesquare_"
  | 45 => if alone then codes "_minus_" else codes "_"
  | _ => codes "_"
  end.
(** cplusplus.cpp 106-111.  res.tellp() is never 0, as "yy_" has been written. *)
Definition is_letter (c : Z) : bool := ((65 <=? c) && (c <=? 90)) || ((97 <=? c) && (c <=? 122)).
Definition is_digit (c : Z) : bool := (48 <=? c) && (c <=? 57).
Definition spell (alone : bool) (c : Z) : str := if is_letter c || is_digit c then [c] else spelled alone c.
(** cplusplus.cpp 84-101.  A name of one quote is its own first and last character: substr(1, size_t(-1))
    of it is empty. *)
Definition unquote (name : str) : str :=
  let first := hd 0 name in let final := last name 0 in
  if ((first =? 39) && (final =? 39)) || ((first =? 34) && (final =? 34)) || ((first =? 60) && (final =? 62))
  then removelast (tl name) else name.
(** cplusplus.cpp 80-164 *)
Definition get_identifier (name : str) : str :=
  match name with
  | [] => codes "_"
  | _ => let stripped := unquote name in codes "yy_" ++ flat_map (spell (Nat.eqb (length stripped) 1)) stripped
  end.

(** ** Constants for the symbols *)
(** cplusplus.cpp 327-337 and 373-383.  The map of counts is kept as the list of the short names so far:
    the value for a name is the number of times it is in the list.  [None]: out of fuel *)
Definition times (name : str) (seen : list str) : nat := count_occ str_eq_dec seen name.
Fixpoint choose_name (fuel : nat) (seen : list str) (count : nat) (name : str) : option str :=
  if Nat.ltb 0 (times name seen) then
    match fuel with
    | O => None
    | S fuel => choose_name fuel seen count (name ++ 95 :: digits count)
    end
  else Some name.
(** cplusplus.cpp 322-341: the names of the constants, in the order of the symbols *)
Fixpoint constants (seen : list str) (shorts : list str) : option (list str) :=
  match shorts with
  | [] => Some []
  | s :: shorts =>
      match choose_name (length seen) seen (times s seen) s, constants (seen ++ [s]) shorts with
      | Some name, Some names => Some (name :: names)
      | _, _ => None
      end
  end.
Definition terminal_constants (names : list str) : option (list str) := constants [] (map get_identifier names).
(** cplusplus.cpp 361-390: only the nonterminals of the language, not those of EBNF items *)
Definition nonterminal_short (name : str) : str := match name with [] => codes "_unnamed" | _ => get_identifier name end.
Definition nonterminal_constants (names : list str) : option (list str) := constants [] (map nonterminal_short names).

(** ** Names with a number *)
(** output_stage.cpp 495-508 and cplusplus.cpp 182-211: the name itself, then the name with _2, _3 and so on,
    until it is not in the list.  [None]: out of fuel *)
Definition variant_of (base : str) (variant : nat) : str := if Nat.ltb 1 variant then base ++ 95 :: digits variant else base.
Fixpoint free_variant (fuel : nat) (taken : str -> bool) (base : str) (variant : nat) : option str :=
  if taken (variant_of base variant) then
    match fuel with
    | O => None
    | S fuel => free_variant fuel taken base (S variant)
    end
  else Some (variant_of base variant).

(** ** Names of items *)
(** output_stage.cpp 357-375 *)
Definition strip (name : str) : str := if Nat.ltb (length name) 3 then name else unquote name.
Fixpoint join (sep : str) (l : list str) : str :=
  match l with
  | [] => []
  | [a] => a
  | a :: l => a ++ sep ++ join sep l
  end.
Section Items.
  (** terminal_dictionary::name_for_symbol and grammar::name_for_nonterminal *)
  Context (terminal_name nonterminal_name : Z -> str).

  (** output_stage.cpp 290-321: the name of a rule from the names of its items *)
  Definition rule_text (names : list str) : str :=
    match names with
    | [] => codes "empty"
    | first :: _ => if Nat.leb (length names) 3 then join (codes "_") names else first ++ codes "_etc"
    end.
  (** output_stage.cpp 324-354 *)
  Definition ebnf_text (rules : list str) : str :=
    match rules with [] => codes "empty" | _ => join (codes "_or_") rules end.
  Definition kind_text (k : ebnf_kind) : str :=
    match k with Optional => codes "optional_" | Repeat | RepeatZero => codes "list_of_" | Alternative => codes "one_of_" end.
  (** output_stage.cpp 378-431.  Guards get the default name. *)
  Definition nonempty (name : str) : str := match name with [] => codes "item" | _ => name end.
  Fixpoint name_for_item (i : item) : str :=
    nonempty match i with
             | IEmpty => codes "epsilon"
             | IEoi => codes "end_of_input"
             | IEog => codes "end_of_guard"
             | ITerm s => strip (terminal_name s)
             | INonterm s => strip (nonterminal_name s)
             | IGuard _ _ => codes "unknown_item"
             | IEbnf k rules => kind_text k ++ ebnf_text (map (fun items => rule_text (map name_for_item items)) rules)
             end.

  (** output_stage.cpp 482-511: the names of the items of a rule.  [names]: the names given in the language
      (rule attributes), empty for none *)
  Fixpoint unique_names (taken : list str) (items : list (item * str)) : option (list str) :=
    match items with
    | [] => Some []
    | (i, given) :: items =>
        let base := match given with [] => name_for_item i | _ => given end in
        match free_variant (S (length taken)) (fun n => used n taken || match n with [] => true | _ => false end) base 1 with
        | Some n => match unique_names (n :: taken) items with Some ns => Some (n :: ns) | None => None end
        | None => None
        end
    end.
  Definition names_of_rule (items : list (item * str)) : option (list str) := unique_names [] items.

  (** ** Classes *)
  (** m_ClassNameForItem and m_UsedClassNames *)
  Record class_names := mkClasses { cn_items : list (Z * str); cn_used : list str }.
  (** grammar::identifier_for_item *)
  Context (ident : item -> Z).
  Fixpoint lookup (n : Z) (l : list (Z * str)) : option str :=
    match l with
    | [] => None
    | (k, s) :: l => if k =? n then Some s else lookup n l
    end.
  (** cplusplus.cpp 167-212 *)
  Definition class_name (i : item) (st : class_names) : option (str * class_names) :=
    match lookup (ident i) (cn_items st) with
    | Some s => Some (s, st)
    | None =>
        match free_variant (S (length (cn_used st))) (fun n => used n (cn_used st)) (get_identifier (name_for_item i)) 1 with
        | Some s => Some (s, mkClasses ((ident i, s) :: cn_items st) (s :: cn_used st))
        | None => None
        end
    end.
  Fixpoint class_names_for (items : list item) (st : class_names) : option (list str * class_names) :=
    match items with
    | [] => Some ([], st)
    | i :: items =>
        match class_name i st with
        | Some (s, st) => match class_names_for items st with Some (ss, st) => Some (s :: ss, st) | None => None end
        | None => None
        end
    end.
  (** cplusplus.cpp 282, 317, 355, 406, 465-466, 836: the names that are used before the first class name is
      asked for.  [language]: the name given for the class of the language *)
  Definition reserved (language : str) : list str :=
    [codes "lr_tables"; codes "lexer"; codes "number_of_lexer_states"; codes "number_of_symbol_sets"; codes "nt"; codes "t"; get_identifier language].
  (** cplusplus.cpp 942, 954, 998-1013: the classes that are written for an item.  Repeating items have two,
      guards none. *)
  Definition type_suffix : str := codes "_n".
  Definition content_suffix : str := codes "_content".
  Definition classes_of (i : item) (name : str) : list str :=
    match i with
    | IGuard _ _ => []
    | IEbnf Repeat _ | IEbnf RepeatZero _ => [name ++ type_suffix; name ++ type_suffix ++ content_suffix]
    | _ => [name ++ type_suffix]
    end.
End Items.
