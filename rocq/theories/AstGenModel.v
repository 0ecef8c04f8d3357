(** Model of the syntax tree classes in generated C++ source: what they declare, how the generated parser
    actions make objects of them, and the positions the objects have (Compiler/output_stage.cpp 440-524,
    Compiler/OutputStages/cplusplus.cpp 969-1659).  The generated code is modelled as data together with the
    meaning C++ gives it.  A class is named here by the item it is for (C71: different items have classes
    with different names); for a repeating item the objects are of its content class. *)
From Verif Require Import Base GrammarModel NamesModel RunModel.
Local Open Scope Z_scope.

(** output_stage.h: ast_rule_item *)
Record part := mkPart { p_item : item; p_name : str; p_repetition : bool }.
Definition is_guard (i : item) : bool := match i with IGuard _ _ => true | _ => false end.
(** output_stage.cpp 477 *)
Definition repeats (i : item) : bool := match i with IEbnf Repeat _ | IEbnf RepeatZero _ => true | _ => false end.
Definition is_repeat (i : item) : bool := match i with IEbnf Repeat _ => true | _ => false end.
Definition is_repeat_zero (i : item) : bool := match i with IEbnf RepeatZero _ => true | _ => false end.
(** item.h 198 with the constructors of the items: symbol_set::null for all but terminals and nonterminals *)
Definition symbol_of (i : item) : Z := match i with ITerm s => s | INonterm s => s | _ => -1 end.

(** A constructor: the rule it is for, the classes of its parameters (none: it has a position as its
    parameter) and the variables it initialises with the parameters, in order *)
Record ctor := mkCtor { ct_rule : Z; ct_params : list item; ct_inits : list str }.
(** A class: its variables for items, with the classes they point to; how many times it declares
    m_Position; and its constructors *)
Record ast_class := mkClass { c_variables : list (str * item); c_positions : nat; c_ctors : list ctor }.

(** A case of the switch in the generated reduce function.  An argument is an index into the list of reduced
    values and the class it is cast to. *)
Inductive reduce_case :=
| CaseNode (args : list (nat * item))                          (* return node(new C(...)) *)
| CaseEmpty                                                     (* return node(new L()) *)
| CaseAdd (args : list (nat * item)) (from : option nat)       (* make content, add to the list reduce[n] or to a new one *)
| CaseNothing.                                                  (* no statement: the next case follows *)

Section Language.
  Context (terminal_name nonterminal_name : Z -> str).
  (** All rules of the grammar in the order of their identifiers, the identifiers, and the names given to the
      items of a rule in the language *)
  Context (all : list rule) (rid : rule -> Z) (given : rule -> list str).
  (** The items of the grammar other than terminals, in the order of their identifiers (output_stage.cpp
      122-137) *)
  Context (symbols : list item).

  (** output_stage.cpp 446-457 and 471: the rules of a nonterminal *)
  Definition own_rules (x : item) : list rule := filter (fun r => item_eqb (r_nonterminal r) x) all.
  (** output_stage.cpp 482-520.  Making the names never runs out of fuel (C72_names). *)
  Definition part_names (r : rule) : list str :=
    match names_of_rule terminal_name nonterminal_name (combine (r_items r) (given r)) with Some l => l | None => [] end.
  Definition flag_first (x : item) (i : item) : bool := repeats x && item_eqb i x.
  Definition parts_of (r : rule) : list part :=
    match combine (r_items r) (part_names r) with
    | [] => []
    | (i, n) :: l => mkPart i n (flag_first (r_nonterminal r) i) :: map (fun '(i, n) => mkPart i n false) l
    end.
  (** The items that are kept in an object: cplusplus.cpp 1043-1051, 1110-1113, 1245-1248, 1286-1289,
      1589-1592 *)
  Definition kept (p : part) : bool := negb (is_guard (p_item p)) && negb (p_repetition p).
  Definition fields_of (r : rule) : list part := filter kept (parts_of r).
  Definition variable (p : part) : str := get_identifier (p_name p).

  (** ** Classes *)
  (** cplusplus.cpp 1029-1071: the variables of a class, those of one rule after another *)
  Definition add_variable (vars : list (str * item)) (p : part) : list (str * item) :=
    if used (variable p) (map fst vars) then vars else vars ++ [(variable p, p_item p)].
  Definition variables (x : item) : list (str * item) :=
    fold_left (fun vars r => fold_left add_variable (fields_of r) vars) (own_rules x) [].
  (** cplusplus.cpp 1073-1077 *)
  Definition positions (x : item) : nat := length (filter (fun r => match fields_of r with [] => true | _ => false end) (own_rules x)).
  (** cplusplus.cpp 1079-1098 and 1216-1234: whether a rule has a constructor.  [None]: the first element of an
      empty vector is used (1086, 1221, 1551), which is undefined. *)
  Definition has_ctor (x : item) (r : rule) : option bool :=
    if is_repeat x then match parts_of r with [] => None | p :: _ => Some (negb (p_repetition p)) end
    else if is_repeat_zero x then match parts_of r with [] => Some false | _ => Some true end
    else Some true.
  Definition ctor_of (r : rule) : ctor := mkCtor (rid r) (map p_item (fields_of r)) (map variable (fields_of r)).
  Fixpoint ctors_from (x : item) (rs : list rule) : option (list ctor) :=
    match rs with
    | [] => Some []
    | r :: rs => match has_ctor x r, ctors_from x rs with
                 | Some b, Some cs => Some (if b : bool then ctor_of r :: cs else cs)
                 | _, _ => None
                 end
    end.
  (** cplusplus.cpp 970-1174 and 1192-1311 *)
  Definition class_for (x : item) : option ast_class :=
    match ctors_from x (own_rules x) with Some cs => Some (mkClass (variables x) (positions x) cs) | None => None end.

  (** ** Reductions *)
  (** cplusplus.cpp 1582-1608: the list of reduced values is backwards. *)
  Fixpoint arguments (size index : nat) (ps : list part) : list (nat * item) :=
    match ps with
    | [] => []
    | p :: ps => if kept p then (size - index - 1, p_item p)%nat :: arguments size (S index) ps else arguments size (S index) ps
    end.
  Definition args_of (r : rule) : list (nat * item) := arguments (length (parts_of r)) 0 (parts_of r).
  (** cplusplus.cpp 1537-1651 *)
  Definition case_for (x : item) (r : rule) : option reduce_case :=
    if is_repeat x then
      match parts_of r with
      | [] => None
      | p :: _ => Some (CaseAdd (args_of r) (if p_repetition p then Some (length (parts_of r) - 1)%nat else None))
      end
    else if is_repeat_zero x then
      match parts_of r with
      | [] => Some CaseEmpty
      | p :: _ => Some (CaseAdd (args_of r) (if p_repetition p then Some (length (parts_of r) - 1)%nat else None))
      end
    else if is_guard x then Some CaseNothing
    else Some (CaseNode (args_of r)).
  Definition cases : list (Z * (item * rule)) := flat_map (fun x => map (fun r => (rid r, (x, r))) (own_rules x)) symbols.

  (** ** Objects *)
  Section Run.
    (** Lexemes with their symbols and positions; the position of an object made by its default constructor *)
    Context (L P : Type) (matched : L -> Z) (lexeme_pos lexeme_final : L -> P) (zero unknown : P).
    (** The number of terminals *)
    Context (terminals : Z).
    (** Objects: for a lexeme, with the class of the terminal or (no item) the class terminal; of the (content)
        class of an item, with m_Rule, m_Position where it is set, and the variables that are set; the list
        object of a repeating item, with m_Position; no object.  A list is changed by add_child through
        pointers to it: that is modelled as a new list, as the value that is changed is not used again (the
        parser has taken it off its stack). *)
    Inductive node :=
    | NTerm (class : option item) (l : L)
    | NObj (class : item) (m_rule : Z) (m_position : option P) (vars : list (str * node))
    | NList (class : item) (m_position : P) (data : list node)
    | NNull.
    (** The class an object has, for casts.  A cast to another class than that is undefined. *)
    Definition is_of (i : item) (n : node) : bool :=
      match n with
      | NTerm (Some c) _ => item_eqb c i
      | NTerm None _ => false
      | NObj c _ _ _ => item_eqb c i && negb (repeats c)
      | NList c _ _ => item_eqb c i
      | NNull => false
      end.
    (** The values of the arguments.  [None]: outside the list, or a wrong cast *)
    Fixpoint values (reduce : list node) (args : list (nat * item)) : option (list node) :=
      match args with
      | [] => Some []
      | (n, i) :: args => match nth_error reduce n, values reduce args with
                          | Some v, Some vs => if is_of i v then Some (v :: vs) else None
                          | _, _ => None
                          end
      end.
    (** new C(...): the constructor with these parameters.  [None]: the class is not valid, or it has no such
        constructor or two of them *)
    Definition construct (x : item) (params : list item) (vs : list node) (look : P) : option node :=
      match class_for x with
      | Some c =>
          match filter (fun k => items_eqb (ct_params k) params && Nat.eqb (length (ct_params k)) (length params)) (c_ctors c) with
          | [k] => Some (NObj x (ct_rule k) (match params with [] => Some look | _ => None end) (combine (ct_inits k) vs))
          | _ => None
          end
      | None => None
      end.
    (** The statements of a case *)
    Definition run_case (x : item) (c : reduce_case) (reduce : list node) (look : P) : option node :=
      match c with
      | CaseNode args => match values reduce args with Some vs => construct x (map snd args) vs look | None => None end
      | CaseEmpty => Some (NList x zero [])
      | CaseAdd args from =>
          match values reduce args with
          | Some vs =>
              match construct x (map snd args) vs look with
              | Some content =>
                  match from with
                  | Some n => match nth_error reduce n with
                              | Some (NList c p data) => if item_eqb c x then Some (NList c p (data ++ [content])) else None
                              | _ => None
                              end
                  | None => Some (NList x look [content])
                  end
              | None => None
              end
          | None => None
          end
      | CaseNothing => None
      end.
    (** The switch: from the case with the right label on, past cases with no statement; at the end the
        default.  [None]: undefined *)
    Fixpoint run_from (cs : list (Z * (item * rule))) (reduce : list node) (look : P) : option node :=
      match cs with
      | [] => Some NNull
      | (_, (x, r)) :: cs => match case_for x r with
                             | Some CaseNothing => run_from cs reduce look
                             | Some c => run_case x c reduce look
                             | None => None
                             end
      end.
    Fixpoint run_switch (cs : list (Z * (item * rule))) (rule : Z) (reduce : list node) (look : P) : option node :=
      match cs with
      | [] => Some NNull
      | (n, y) :: cs' => if n =? rule then run_from cs reduce look else run_switch cs' rule reduce look
      end.
    Definition gen_reduce (rule : Z) (reduce : list node) (look : P) : option node := run_switch cases rule reduce look.
    (** cplusplus.cpp 1480-1506.  [None]: there is no lexeme, at the end of the input, and its symbol is asked
        for *)
    Definition gen_shift (l : option L) : option node :=
      match l with
      | Some l => Some (NTerm (if (0 <=? matched l) && (matched l <? terminals) then Some (ITerm (matched l)) else None) l)
      | None => None
      end.

    (** The value of a parse tree.  The position that reduce is given is that of the lookahead (parser.h
        318-345), which is the first lexeme after the tree; [after] is the position of what follows.  For a
        guard, shift is called with the lookahead (parser_state.h 184): its leaf is not a lexeme of the tree. *)
    Definition items_of (n : Z) : list item := match find (fun r => rid r =? n) all with Some r => r_items r | None => [] end.
    Fixpoint tokens (t : ast L) : list L :=
      match t with
      | Leaf (Some l) => [l]
      | Leaf None => []
      | Node _ n ts =>
          (fix go (xs : list item) (ts : list (ast L)) {struct ts} : list L :=
             match xs, ts with
             | x :: xs, t :: ts => (if is_guard x then [] else tokens t) ++ go xs ts
             | _, _ => []
             end) (items_of n) ts
      end.
    Definition tokens_of : list item -> list (ast L) -> list L :=
      fix go (xs : list item) (ts : list (ast L)) {struct ts} : list L :=
        match xs, ts with
        | x :: xs, t :: ts => (if is_guard x then [] else tokens t) ++ go xs ts
        | _, _ => []
        end.
    Definition position_of (ls : list L) (after : P) : P := match ls with l :: _ => lexeme_pos l | [] => after end.
    Fixpoint tree_value (after : P) (t : ast L) : option node :=
      match t with
      | Leaf l => gen_shift l
      | Node _ n ts =>
          match (fix go (xs : list item) (ts : list (ast L)) {struct ts} : option (list node) :=
                   match xs, ts with
                   | x :: xs, t :: ts => match tree_value (position_of (tokens_of xs ts) after) t, go xs ts with
                                         | Some v, Some vs => Some (v :: vs)
                                         | _, _ => None
                                         end
                   | _, _ => Some []
                   end) (items_of n) ts with
          | Some vs => gen_reduce n (rev vs) after
          | None => None
          end
      end.

    (** ** Positions *)
    (** cplusplus.cpp 1344-1371: the variable whose position a rule uses.  A part is left out also if it is of
        the same kind as the item of the class and that repeats: symbol() is the same for all EBNF items. *)
    Definition positioned (x : item) (p : part) : bool :=
      negb (is_guard (p_item p)) && negb (repeats x && (kind_of (p_item p) =? kind_of x) && (symbol_of (p_item p) =? symbol_of x)).
    Definition pos_variable (x : item) (r : rule) : option str := option_map variable (hd_error (filter (positioned x) (parts_of r))).
    (** cplusplus.cpp 1386-1413 *)
    Definition final_variable (x : item) (r : rule) : option str := option_map variable (hd_error (filter (positioned x) (rev (parts_of r)))).
    Fixpoint assoc {A} (v : str) (l : list (str * A)) : option A :=
      match l with
      | [] => None
      | (k, a) :: l => if str_eqb k v then Some a else assoc v l
      end.
    Definition rule_with (x : item) (n : Z) : option rule := find (fun r => rid r =? n) (own_rules x).
    (** The generated functions pos (1338-1378, 1424-1428).  [None]: a null pointer, or m_Position where there
        is none *)
    Fixpoint node_pos (n : node) : option P :=
      match n with
      | NTerm _ l => Some (lexeme_pos l)
      | NObj x m_rule m_position vars =>
          match rule_with x m_rule with
          | Some r => match pos_variable x r with
                      | Some v => match assoc v (map (fun '(k, n) => (k, node_pos n)) vars) with Some p => p | None => None end
                      | None => m_position
                      end
          | None => Some unknown
          end
      | NList _ p data => match data with [] => Some p | n :: _ => node_pos n end
      | NNull => None
      end.
    (** The generated functions final_pos (1380-1420, 1430-1433) *)
    Fixpoint node_final (n : node) : option P :=
      match n with
      | NTerm _ l => Some (lexeme_final l)
      | NObj x m_rule m_position vars =>
          match rule_with x m_rule with
          | Some r => match final_variable x r with
                      | Some v => match assoc v (map (fun '(k, n) => (k, node_final n)) vars) with Some p => p | None => None end
                      | None => m_position
                      end
          | None => Some unknown
          end
      | NList _ p data => last (map node_final data) (Some p)
      | NNull => None
      end.
  End Run.
End Language.
Arguments NTerm {L P}. Arguments NObj {L P}. Arguments NList {L P}. Arguments NNull {L P}.
