(** Model of the checks of regular expressions: ndfa_regex::check_regex and check
    (TameParse/Dfa/ndfa_regex.cpp 502-627), check_expression (898-912) and its override in
    TameParse/Compiler/lexer_stage.cpp (178-186), and lexer_stage::check_regex with the loops that call it
    (217-267, 296-309, 339-345).  No proofs in this file. *)
From Verif Require Import Base SymbolSetModel TextModel LexerModel RegexModel LexStageModel.
Local Open Scope Z_scope.

(** regex_error.h 37-54 *)
Inductive fault := MissingRound | MissingSquare | MissingCurly | MissingExpression (name : list Z).
Definition regex_error : Type := fault * position.

(** ndfa_regex.cpp 546-580: one character.  The stack holds the brackets that are waited for. *)
Definition outside (brackets : list Z) : bool := match brackets with [] => true | b :: _ => b =? 41 end.
Definition bracket_step (c : Z) (brackets : list Z) : list Z :=
  if c =? 123 then if outside brackets then 125 :: brackets else brackets
  else if c =? 91 then if outside brackets then 93 :: brackets else brackets
  else if c =? 40 then if outside brackets then 41 :: brackets else brackets
  else if (c =? 41) || (c =? 93) || (c =? 125) then match brackets with b :: rest => if b =? c then rest else brackets | [] => brackets end
  else brackets.
(** ndfa_regex.cpp 545-585: the loop; the position it stops at, and whether the bracket was closed *)
Fixpoint bracket_search (pos : list Z) (brackets : list Z) : list Z * bool :=
  match pos with
  | [] => ([], false)
  | c :: t => match bracket_step c brackets with [] => (pos, true) | b => bracket_search t b end
  end.

Section Check.
  (** check_expression *)
  Context (known : list Z -> bool).
  (** ndfa_regex.cpp 502-520 with 525-627.  The position is the rest of the text, with the tracker; the fuel
      is spent on characters of the text (check_regex gives enough). *)
  Fixpoint check_from (fuel : nat) (t : tracker) (pos : list Z) : option (list regex_error) :=
    match pos with
    | [] => Some []
    | c :: rest =>
        match fuel with
        | O => None
        | S fuel =>
            if c =? 40 then
              let '(_, closed) := bracket_search pos [] in
              match check_from fuel (update_symbol t c) rest with
              | None => None
              | Some errors => Some (if closed then errors else (MissingRound, fst t) :: errors)
              end
            else if c =? 91 then
              let '(stop, closed) := bracket_search pos [] in
              let t' := update_position t (firstn (length pos - length stop) pos) in
              match stop with
              | [] => Some (if closed then [] else [(MissingSquare, fst t)])
              | c' :: rest' =>
                  match check_from fuel (update_symbol t' c') rest' with
                  | None => None
                  | Some errors => Some (if closed then errors else (MissingSquare, fst t) :: errors)
                  end
              end
            else if c =? 92 then
              let t' := update_symbol t c in
              match rest with
              | [] => Some []
              | c' :: rest' => check_from fuel (update_symbol t' c') rest'
              end
            else if c =? 123 then
              let '(name, stop) := span_brace rest in
              let t' := update_position (update_symbol t c) name in
              match stop with
              | [] => Some [(MissingCurly, fst t)]
              | c' :: rest' =>
                  match check_from fuel (update_symbol t' c') rest' with
                  | None => None
                  | Some errors => Some (if known name then errors else (MissingExpression name, fst t) :: errors)
                  end
              end
            else check_from fuel (update_symbol t c) rest
        end
    end.
  Definition check_regex (text : list Z) : option (list regex_error) := check_from (length text) (pos_new, false) text.
End Check.

(** ndfa_regex.cpp 898-912: literal expressions are not looked at.  lexer_stage.cpp 178-186: the lexer data
    first. *)
Definition check_expression (expressions : list Z -> option (list Z)) (category : list Z -> option symbol_set) (defined : list Z -> list (bool * bool * token)) (name : list Z) : bool :=
  match defined name with
  | _ :: _ => true
  | [] => match expressions name with Some _ => true | None => match category name with Some _ => true | None => false end end
  end.

(** lexer_stage.cpp 248-261: the position reported, from the position of the definition and that of the
    fault within it *)
Definition error_position (at_ : position) (e : position) : position :=
  if 0 <=? p_line e then
    if 1 <=? p_line e then mkPos (p_offset at_ + p_offset e + 1) (p_line at_ + p_line e) (p_column e)
    else mkPos (p_offset at_ + p_offset e + 1) (p_line at_) (p_column at_ + p_column e + 1)
  else at_.
(** lexer_stage.cpp 217-267, for the definitions of the loops 296-309 (the expressions) and 312-345 (the
    symbols, without those that have no unit): all the errors reported, in order.  A definition is given with
    its position; file names are left out. *)
Definition report_regex known (d : token * position) : option (list regex_error) :=
  match fst d with
  | Literal _ => Some []
  | Regex text => option_map (map (fun '(f, p) => (f, error_position (snd d) p))) (check_regex known text)
  end.
Fixpoint report_all known (ds : list (token * position)) : option (list regex_error) :=
  match ds with
  | [] => Some []
  | d :: ds => match report_regex known d, report_all known ds with Some a, Some b => Some (a ++ b) | _, _ => None end
  end.
Definition stage_errors known (exprs : list (token * position)) (items : list (lex_item * position)) : option (list regex_error) :=
  report_all known (exprs ++ map (fun '(i, p) => (li_token i, p)) (filter (fun '(i, _) => negb (li_unit i =? unit_null)) items)).
