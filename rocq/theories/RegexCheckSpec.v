(** Specification of the brackets of a regular expression: its text cut into pieces, and what is wrong
    with them. *)
From Verif Require Import Base LexerModel RegexModel RegexSpec RegexCheckModel.
Local Open Scope Z_scope.

(** A character of a class: itself, or quoted by a backslash *)
Inductive letter := Itself (c : Z) | Behind (c : Z).
Definition letter_text (l : letter) : list Z := match l with Itself c => [c] | Behind c => [92; c] end.
Definition letter_ok (l : letter) : Prop := match l with Itself c => c <> 92 /\ c <> 93 | Behind _ => True end.
(** The pieces of an expression *)
Inductive piece :=
| Plain (c : Z)
| Quote (c : Z)                     (* \c *)
| Class (body : list letter)        (* [body] *)
| Name (name : list Z)              (* {name} *)
| Open | Close.                     (* ( and ) *)
(** What is left at the end: nothing, a backslash, or a class or name that is cut off (the class perhaps
    behind a backslash) *)
Inductive ending := Whole | LoneBackslash | CutClass (body : list letter) (backslash : bool) | CutName (name : list Z).
Definition piece_text (p : piece) : list Z :=
  match p with
  | Plain c => [c] | Quote c => [92; c]
  | Class body => 91 :: flat_map letter_text body ++ [93]
  | Name name => 123 :: name ++ [125]
  | Open => [40] | Close => [41]
  end.
Definition ending_text (e : ending) : list Z :=
  match e with Whole => [] | LoneBackslash => [92] | CutClass body b => 91 :: flat_map letter_text body ++ (if b then [92] else []) | CutName name => 123 :: name end.
Definition piece_ok (p : piece) : Prop :=
  match p with
  | Plain c => ~ In c [40; 41; 91; 92; 123]
  | Class body => Forall letter_ok body
  | Name name => ~ In 125 name
  | _ => True
  end.
Definition ending_ok (e : ending) : Prop := match e with CutClass body _ => Forall letter_ok body | CutName name => ~ In 125 name | _ => True end.
Definition pieces_text (ps : list piece) : list Z := flat_map piece_text ps.
Definition regex_text (ps : list piece) (e : ending) : list Z := pieces_text ps ++ ending_text e.

(** A sequence in which every bracket has its partner *)
Inductive balanced : list piece -> Prop :=
| balanced_none : balanced []
| balanced_piece p ps : p <> Open -> p <> Close -> balanced ps -> balanced (p :: ps)
| balanced_group inner ps : balanced inner -> balanced ps -> balanced (Open :: inner ++ Close :: ps).
(** The bracket in front of [ps] is closed *)
Definition closed (ps : list piece) : Prop := exists inner rest, ps = inner ++ Close :: rest /\ balanced inner.
(** What is wrong, with the part of the expression in front of it *)
Inductive wrong (known : list Z -> bool) (ps : list piece) (e : ending) : list piece -> fault -> Prop :=
| wrong_round before after : ps = before ++ Open :: after -> ~ closed after -> wrong known ps e before MissingRound
| wrong_square body b : e = CutClass body b -> wrong known ps e ps MissingSquare
| wrong_curly name : e = CutName name -> wrong known ps e ps MissingCurly
| wrong_name before name after : ps = before ++ Name name :: after -> known name = false -> wrong known ps e before (MissingExpression name).
(** The position behind a part of the expression *)
Definition place (before : list piece) : position := fst (update_position (pos_new, false) (pieces_text before)).

(** No quoted bracket where the search for the partner of a bracket would meet it: none behind the first
    round bracket that is open there, and no quoted square bracket in a class *)
Definition harmless_letter (l : letter) : Prop := l <> Behind 93.
Fixpoint harmless (depth : nat) (ps : list piece) (e : ending) : Prop :=
  match ps with
  | [] => match e with CutClass body _ => Forall harmless_letter body | _ => True end
  | Open :: ps => harmless (S depth) ps e
  | Close :: ps => harmless (pred depth) ps e
  | Quote c :: ps => (depth = 0%nat \/ ~ In c [40; 41; 91; 123]) /\ harmless depth ps e
  | Class body :: ps => Forall harmless_letter body /\ harmless depth ps e
  | _ :: ps => harmless depth ps e
  end.

(** ** For regular expressions given as trees (RegexSpec) *)
Definition chr_clear (c : chr) : Prop := c <> Quoted 93.
Definition member_clear (m : member) : Prop := match m with One c => chr_clear c | Between a b => chr_clear a /\ chr_clear b end.
(** No bracket is quoted in a group, no square bracket is quoted in a class, and no name stands for a
    literal.  [inside]: the expression is in a group. *)
Fixpoint clear_quotes (inside : bool) (r : re) : Prop :=
  match r with
  | RAtom (AChr (Quoted c)) => inside = false \/ ~ In c [40; 41; 91; 123]
  | RAtom (AClass _ ms) => Forall member_clear ms
  | RCat r s | ROr r s => clear_quotes inside r /\ clear_quotes inside s
  | RStar r | RPlus r | ROpt r => clear_quotes inside r
  | RGroup r => clear_quotes true r
  | RWord _ _ => False
  | _ => True
  end.

(** ** For the whole of a lexer: the position in the file of a part of a definition.  The definition starts
    with a slash at [at_]. *)
Definition file_place (at_ : position) (before : list piece) : position :=
  fst (update_position (at_, false) (47 :: pieces_text before)).
