(** Independent specification of regular expressions: their syntax as trees with the text
    that stands for them, and the words they match. *)
From Verif Require Import Base SymbolSetModel SymbolSetSpec NdfaModel TextModel CaseTables TextSpec RegexModel.
Local Open Scope Z_scope.

(** ** Characters.  (40, 41 are round brackets, 42 the star, 43 plus, 45 minus, 46 the full
    stop, 63 the question mark, 91, 93 square brackets, 92 the backslash, 94 the caret,
    123, 125 curly brackets, 124 the bar.) *)
Definition hex_digits : list (Z * Z) :=
  [(48,0);(49,1);(50,2);(51,3);(52,4);(53,5);(54,6);(55,7);(56,8);(57,9);
   (97,10);(98,11);(99,12);(100,13);(101,14);(102,15);(65,10);(66,11);(67,12);(68,13);(69,14);(70,15)].
Fixpoint lookup (k : Z) (l : list (Z * Z)) : option Z :=
  match l with [] => None | (a, v) :: t => if a =? k then Some v else lookup k t end.
Definition digit (c : Z) : Z := match lookup c hex_digits with Some v => v | None => 0 end.
Definition is_digit (c : Z) : Prop := In c (map fst hex_digits).
Definition is_octal (c : Z) : Prop := 48 <= c <= 55.

Inductive chr :=
| Raw (c : Z)              (* the character itself *)
| Quoted (c : Z)           (* \c *)
| Control (c : Z)          (* \a \e \n \r \f \t *)
| Unicode (a b c d : Z)    (* backslash, u, four hexadecimal digits *)
| Latin (a b : Z)          (* \xab *)
| Octal (a b c : Z).       (* \abc *)

Definition chr_text (c : chr) : list Z :=
  match c with
  | Raw c => [c]
  | Quoted c => [92; c]
  | Control c => [92; c]
  | Unicode a b c d => [92; 117; a; b; c; d]
  | Latin a b => [92; 120; a; b]
  | Octal a b c => [92; a; b; c]
  end.

Definition chr_value (c : chr) : Z :=
  match c with
  | Raw c => c
  | Quoted c => c
  | Control c => match lookup c control with Some v => v | None => 0 end
  | Unicode a b c d => digit a * 4096 + digit b * 256 + digit c * 16 + digit d
  | Latin a b => digit a * 16 + digit b
  | Octal a b c => (a - 48) * 64 + (b - 48) * 8 + (c - 48)
  end.

(** [special] are the characters that cannot stand for themselves there; letters and digits
    have a meaning of their own behind a backslash. *)
Definition chr_ok (special : list Z) (c : chr) : Prop :=
  match c with
  | Raw c => 0 <= c < c_MaxSymbol /\ ~ In c special
  | Quoted c => 0 <= c < c_MaxSymbol /\ ~ In c (map fst control) /\ ~ In c [117; 120; 111] /\ ~ 48 <= c <= 57
  | Control c => In c (map fst control)
  | Unicode a b c d => is_digit a /\ is_digit b /\ is_digit c /\ is_digit d
  | Latin a b => is_digit a /\ is_digit b
  | Octal a b c => is_octal a /\ is_octal b /\ is_octal c
  end.

(** ** Character classes *)
Inductive member := One (c : chr) | Between (a b : chr).
Definition member_text (m : member) : list Z :=
  match m with One c => chr_text c | Between a b => chr_text a ++ [45] ++ chr_text b end.
Definition member_has (m : member) (x : Z) : Prop :=
  match m with One c => x = chr_value c | Between a b => chr_value a <= x <= chr_value b end.
Definition class_special : list Z := [92; 93; 94; 45].
Definition member_ok (m : member) : Prop :=
  match m with
  | One c => chr_ok class_special c
  | Between a b => chr_ok class_special a /\ chr_ok class_special b /\ chr_value a <= chr_value b
  end.

Inductive atom :=
| AChr (c : chr)
| AAny                                        (* the full stop *)
| AClass (negate : bool) (members : list member).

Definition atom_text (a : atom) : list Z :=
  match a with
  | AChr c => chr_text c
  | AAny => [46]
  | AClass negate ms => [91] ++ (if negate then [94] else []) ++ flat_map member_text ms ++ [93]
  end.
Definition atom_has (a : atom) (x : Z) : Prop :=
  match a with
  | AChr c => x = chr_value c
  | AAny => 0 <= x < c_MaxSymbol
  | AClass false ms => exists m, In m ms /\ member_has m x
  | AClass true ms => 0 <= x < c_MaxSymbol /\ forall m, In m ms -> ~ member_has m x
  end.
Definition regex_special : list Z := [40; 41; 42; 43; 46; 63; 91; 92; 123; 124].
Definition atom_ok (a : atom) : Prop :=
  match a with
  | AChr c => chr_ok regex_special c
  | AAny => True
  | AClass _ ms => Forall member_ok ms /\ ms <> [] /\ exists x, atom_has a x
  end.

(** ** Regular expressions *)
Inductive re :=
| REmpty
| RAtom (a : atom)
| RCat (r s : re)
| ROr (r s : re)
| RStar (r : re)
| RPlus (r : re)
| ROpt (r : re)
| RGroup (r : re)                             (* (r) *)
| RName (name : list Z) (r : re)              (* {name}, defined as r *)
| RWord (name : list Z) (word : list Z)       (* {name}, defined as the literal word *)
| RChars (name : list Z) (has : Z -> Prop)    (* {name}, a category of characters *)
| RDefs (name : list Z) (ds : definitions)    (* {name}, defined in the lexer data *)
with tree := TRegex (r : re) | TLiteral (word : list Z)
with definitions :=                           (* the two flags: to ignore case, to distinguish case *)
| DOne (insensitive sensitive : bool) (t : tree)
| DMore (insensitive sensitive : bool) (t : tree) (ds : definitions).

Fixpoint text (r : re) : list Z :=
  match r with
  | REmpty => []
  | RAtom a => atom_text a
  | RCat r s => text r ++ text s
  | ROr r s => text r ++ [124] ++ text s
  | RStar r => text r ++ [42]
  | RPlus r => text r ++ [43]
  | ROpt r => text r ++ [63]
  | RGroup r => [40] ++ text r ++ [41]
  | RName name _ | RWord name _ | RChars name _ | RDefs name _ => [123] ++ name ++ [125]
  end.
Definition tree_text (t : tree) : token := match t with TRegex r => Regex (text r) | TLiteral w => Literal w end.
Fixpoint items_text (ds : definitions) : list (bool * bool * token) :=
  match ds with
  | DOne i s t => [(i, s, tree_text t)]
  | DMore i s t ds => (i, s, tree_text t) :: items_text ds
  end.

(** The words matched.  With [surr], characters beyond 0xffff are read as two UTF-16 units. *)
Definition lang := list Z -> Prop.
Definition l_cat (L M : lang) : lang := fun w => exists u v, w = u ++ v /\ L u /\ M v.
Inductive l_star (L : lang) : lang :=
| star_nil : l_star L []
| star_step u v : L u -> l_star L v -> l_star L (u ++ v).
Definition units (surr : bool) (P : Z -> Prop) : lang :=
  fun w => exists x, P x /\ if surr then x < 0x110000 /\ w = utf16 x else w = [x].

Section Matches.
  (** [nocase]: case is ignored; [low] and [up] are the two cases of a character *)
  Context (surr nocase : bool) (low up : Z -> Z).
  Definition same_char (y x : Z) : Prop := x = y \/ (nocase = true /\ (x = low y \/ x = up y)).
  Definition any_case (P : Z -> Prop) (x : Z) : Prop := exists y, P y /\ same_char y x.

  Fixpoint l_word (word : list Z) : lang :=
    match word with
    | [] => fun w => w = []
    | c :: t => l_cat (units surr (any_case (fun x => x = c))) (l_word t)
    end.

End Matches.

Fixpoint matches (surr nocase : bool) (low up : Z -> Z) (r : re) {struct r} : lang :=
  match r with
  | REmpty => fun w => w = []
  | RAtom a => units surr (any_case nocase low up (atom_has a))
  | RCat r s => l_cat (matches surr nocase low up r) (matches surr nocase low up s)
  | ROr r s => fun w => matches surr nocase low up r w \/ matches surr nocase low up s w
  | RStar r => l_star (matches surr nocase low up r)
  | RPlus r => l_cat (matches surr nocase low up r) (l_star (matches surr nocase low up r))
  | ROpt r => fun w => w = [] \/ matches surr nocase low up r w
  | RGroup r => matches surr nocase low up r
  | RName _ r => matches surr nocase low up r
  | RWord _ word => l_word surr nocase low up word
  | RChars _ has => units surr (any_case nocase low up has)
  | RDefs _ ds => matches_any surr nocase low up ds
  end
with matches_tree (surr nocase : bool) (low up : Z -> Z) (t : tree) {struct t} : lang :=
  match t with
  | TRegex r => matches surr nocase low up r
  | TLiteral word => l_word surr nocase low up word
  end
with matches_any (surr nocase : bool) (low up : Z -> Z) (ds : definitions) {struct ds} : lang :=
  match ds with
  | DOne i s t => matches_tree surr (item_case nocase i s) low up t
  | DMore i s t ds => fun w => matches_tree surr (item_case nocase i s) low up t w \/ matches_any surr nocase low up ds w
  end.

(** ** Syntax: which trees their text stands for (level 0: anything, 1: no bar outside
    brackets, 2: what a postfix operator applies to).  [expressions], [literals], [category] and [defined]
    are the defined names. *)
Section Syntax.
  Context (surr nocase : bool) (low up : Z -> Z) (convertible : (Z -> Prop) -> Prop).

  (** With [surr], no two neighbouring characters of a class beyond 0xffff may start with
      different units. *)
  Definition unsplit (P : Z -> Prop) : Prop :=
    forall x, P x -> P (x + 1) -> 0x10000 <= x -> x + 1 < 0x110000 -> (x + 1) mod 1024 <> 0.

  (** The characters of a class: their cases must be found correctly, and all of them must be
      below 0x10000 or fall into blocks with the same first unit. *)
  Definition chars_ok (P : Z -> Prop) : Prop :=
    (nocase = true -> convertible P) /\ (surr = true -> unsplit (any_case nocase low up P)).
  Definition word_ok (word : list Z) : Prop := Forall (fun c => 0 <= c < c_MaxSymbol /\ chars_ok (fun x => x = c)) word.
End Syntax.

Section WellFormed.
  Context (expressions literals : list Z -> option (list Z)) (category : list Z -> option symbol_set) (defined : list Z -> list (bool * bool * token)) (surr : bool) (low up : Z -> Z) (convertible : (Z -> Prop) -> Prop).

  Fixpoint well_formed_in (nocase : bool) (level : nat) (r : re) {struct r} : Prop :=
    match r with
    | REmpty => (level <= 1)%nat
    | RAtom a => atom_ok a /\ chars_ok surr nocase low up convertible (atom_has a)
    | RCat r s => (level <= 1)%nat /\ well_formed_in nocase 1 r /\ well_formed_in nocase 1 s
    | ROr r s => (level <= 0)%nat /\ well_formed_in nocase 1 r /\ well_formed_in nocase 0 s
    | RStar r | RPlus r | ROpt r => well_formed_in nocase 2 r
    | RGroup r => well_formed_in nocase 0 r
    | RName name r => ~ In 125 name /\ defined name = [] /\ expressions name = Some (text r) /\ well_formed_in nocase 0 r
    | RWord name word => ~ In 125 name /\ defined name = [] /\ expressions name = None /\ literals name = Some word /\
                         word_ok surr nocase low up convertible word
    | RChars name has => ~ In 125 name /\ defined name = [] /\ expressions name = None /\ literals name = None /\
                         (exists s, category name = Some s /\ normal s /\ forall x, contains s x = true <-> has x) /\
                         (exists x, has x) /\ chars_ok surr nocase low up convertible has
    | RDefs name ds => ~ In 125 name /\ defined name = items_text ds /\ well_formed_all nocase ds
    end
  with well_formed_tree (nocase : bool) (t : tree) {struct t} : Prop :=
    match t with
    | TRegex r => well_formed_in nocase 0 r
    | TLiteral word => word_ok surr nocase low up convertible word
    end
  with well_formed_all (nocase : bool) (ds : definitions) {struct ds} : Prop :=
    match ds with
    | DOne i s t => well_formed_tree (item_case nocase i s) t
    | DMore i s t ds => well_formed_tree (item_case nocase i s) t /\ well_formed_all nocase ds
    end.
End WellFormed.
Notation well_formed expressions literals category defined surr nocase low up convertible := (well_formed_in expressions literals category defined surr low up convertible nocase).

(** ** The regular expressions that are compiled correctly.  [begin_free r]: no repetition in
    [r] goes back to where [r] begins; [end_free r]: no repetition leaves where [r] ends;
    [nothing r]: the two are the same place. *)
Fixpoint nothing (r : re) : bool :=
  match r with
  | REmpty => true
  | RCat r s => nothing r && nothing s
  | RStar r | RPlus r | ROpt r | RGroup r => nothing r
  | RWord _ word | RDefs _ (DOne _ _ (TLiteral word)) => match word with [] => true | _ => false end
  | _ => false
  end.
Fixpoint begin_free (r : re) : bool :=
  match r with
  | RCat r s => begin_free r && (negb (nothing r) || begin_free s)
  | RStar _ | RPlus _ => false
  | ROpt r => negb (nothing r)
  | RGroup r => begin_free r
  | _ => true
  end.
Fixpoint end_free (r : re) : bool :=
  match r with
  | RCat r s => end_free s && (negb (nothing s) || end_free r)
  | RStar _ | RPlus _ => false
  | ROpt r => negb (nothing r)
  | RGroup r => end_free r
  | RName _ r | RDefs _ (DOne _ _ (TRegex r)) => end_free r
  | _ => true
  end.

(** A repetition must not be followed by a repetition ([a*b*]), alternatives must not begin
    with one ([a*|b]), and what [*] and [?] apply to must neither begin nor end with one. *)
Fixpoint safe (r : re) : bool :=
  match r with
  | RCat r s => safe r && safe s && (end_free r || begin_free s)
  | ROr r s => safe r && safe s && begin_free r && begin_free s
  | RStar r | ROpt r => safe r && begin_free r && end_free r
  | RPlus r | RGroup r => safe r
  | RName _ (ROr r s) => safe r && safe s && begin_free s
  | RName _ r => safe r
  | RDefs _ ds => safe_all ds
  | _ => true
  end
with safe_tree (t : tree) : bool :=
  match t with
  | TRegex (ROr r s) => safe r && safe s && begin_free s
  | TRegex r => safe r
  | TLiteral _ => true
  end
with safe_all (ds : definitions) : bool :=
  match ds with
  | DOne _ _ t => safe_tree t
  | DMore _ _ t ds => safe_tree t && safe_all ds
  end.
Definition safe_whole (r : re) : bool :=
  match r with ROr r s => safe r && safe s && begin_free s | _ => safe r end.

(** ** With the real case tables *)
Definition low : Z -> Z := case_of lowercase_map.
Definition up : Z -> Z := case_of uppercase_map.

(** The sets whose cases are found correctly: no run of characters starts inside an entry of a
    table (behind its first character) and goes on behind it. *)
Definition case_safe (P : Z -> Prop) : Prop :=
  forall e x, In e (lowercase_map ++ uppercase_map) -> e_lower e < x < e_upper e -> ~ P (x - 1) -> ~ (forall y, x <= y <= e_upper e -> P y).

(** ** Tokens: the words they stand for *)
Definition tree_matches (surr nocase : bool) (t : tree) : lang :=
  match t with TRegex r => matches surr nocase low up r | TLiteral w => l_word surr nocase low up w end.
Definition tree_ok (expressions literals : list Z -> option (list Z)) (category : list Z -> option symbol_set) (defined : list Z -> list (bool * bool * token)) (surr nocase : bool) (t : tree) : Prop :=
  match t with
  | TRegex r => well_formed expressions literals category defined surr nocase low up case_safe 0 r /\ safe_whole r = true
  | TLiteral w => Forall (fun c => 0 <= c < c_MaxSymbol) w
  end.

(** The states with accept actions exist (so it is unless [accept] is called for a state before
    it is added). *)
Definition accept_in_range {A} (d : ndfa A) : Prop := forall q, In q (map fst (n_accept d)) -> (q < count_states d)%nat.
