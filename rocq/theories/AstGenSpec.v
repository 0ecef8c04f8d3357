(** What the classes and objects of generated syntax trees should be. *)
From Verif Require Import Base GrammarModel ClosureSpec NamesModel NamesSpec RunModel AstGenModel.
Local Open Scope Z_scope.

(** ** Classes *)
(** What C++ asks of a class: no two members with the same name, none with the name of the class, no two
    constructors for the same parameters; a variable has a class that is written (guards have none); a constructor initialises each variable once, with a value of its
    class, and the position only if there is one. *)
Record valid_class (name : str) (c : ast_class) : Prop := {
  valid_variables : NoDup (map fst (c_variables c));
  valid_name : ~ In name (map fst (c_variables c));
  valid_types : forall v p g, ~ In (v, IGuard p g) (c_variables c);
  valid_position : (c_positions c <= 1)%nat;
  valid_ctors : forall n m k k', nth_error (c_ctors c) n = Some k -> nth_error (c_ctors c) m = Some k' -> ct_params k = ct_params k' -> n = m;
  valid_inits : forall k, In k (c_ctors c) -> NoDup (ct_inits k) /\ Forall2 (fun v i => In (v, i) (c_variables c)) (ct_inits k) (ct_params k);
  valid_uses : forall k, In k (c_ctors c) -> ct_params k = [] -> c_positions c = 1%nat }.

(** ** Objects *)
Section Objects.
  Context (rules : Z -> list (list item)) (rid : rule -> Z).
  (** The variables of the items of a rule *)
  Context (names : rule -> list str).
  Context (L P : Type) (matched : L -> Z) (zero : P).
  (** The position of the first lexeme of a sequence of trees for the given items, or of what follows *)
  Context (position : list item -> list (ast L) -> P -> P).
  Local Notation node := (node L P).
  Local Notation content rs := (nth 0 rs []).

  (** The object an item with a list makes for each of the elements: the rule it says it is for and the
      variables.  For + it is the rule for the first element, for * the rule for a further element, whose
      first item is the list itself. *)
  Definition element_rule (k : ebnf_kind) (rs : list (list item)) : rule :=
    match k with
    | Repeat => mkRule (IEbnf k rs) (content rs)
    | _ => mkRule (IEbnf k rs) (IEbnf k rs :: content rs)
    end.
  Definition element_names (k : ebnf_kind) (rs : list (list item)) : list str :=
    match k with
    | Repeat => names (element_rule k rs)
    | _ => tl (names (element_rule k rs))
    end.
  (** Objects without variables have a position. *)
  Definition placed (fs : list (str * node)) (after : P) : option P := match fs with [] => Some after | _ => None end.

  (** [shows after x t v]: the object [v] is what it should be for the parse tree [t] of the item [x], where
      [after] is the position of what follows.  [fields] goes through the items of a rule: each but the
      guards has its object in its variable.  [elements] goes through the tree of a list: each element has
      its object, in order. *)
  Inductive shows : P -> item -> ast L -> node -> Prop :=
  | shows_lexeme after l : shows after (ITerm (matched l)) (Leaf (Some l)) (NTerm (Some (ITerm (matched l))) l)
  | shows_object after x n r ts fs : repeats x = false -> expands rules x r -> fields after r (names (mkRule x r)) ts fs ->
      shows after x (Node n (rid (mkRule x r)) ts) (NObj x (rid (mkRule x r)) (placed fs after) fs)
  | shows_list after k rs t p vs : elements after k rs t p vs -> shows after (IEbnf k rs) t (NList (IEbnf k rs) p vs)
  with fields : P -> list item -> list str -> list (ast L) -> list (str * node) -> Prop :=
  | fields_none after : fields after [] [] [] []
  | fields_guard after p g xs n ns t ts fs : fields after xs ns ts fs -> fields after (IGuard p g :: xs) (n :: ns) (t :: ts) fs
  | fields_more after x xs n ns t ts v fs : is_guard x = false -> shows (position xs ts after) x t v -> fields after xs ns ts fs ->
      fields after (x :: xs) (n :: ns) (t :: ts) ((n, v) :: fs)
  with elements : P -> ebnf_kind -> list (list item) -> ast L -> P -> list node -> Prop :=
  | elements_none after n rs : elements after RepeatZero rs (Node n (rid (mkRule (IEbnf RepeatZero rs) [])) []) zero []
  | elements_one after n rs ts fs : fields after (content rs) (element_names Repeat rs) ts fs ->
      elements after Repeat rs (Node n (rid (mkRule (IEbnf Repeat rs) (content rs))) ts) after [NObj (IEbnf Repeat rs) (rid (element_rule Repeat rs)) (placed fs after) fs]
  | elements_more after k n rs t ts p vs fs : elements (position (content rs) ts after) k rs t p vs -> fields after (content rs) (element_names k rs) ts fs ->
      elements after k rs (Node n (rid (mkRule (IEbnf k rs) (IEbnf k rs :: content rs))) (t :: ts)) p (vs ++ [NObj (IEbnf k rs) (rid (element_rule k rs)) (placed fs after) fs]).
End Objects.

(** ** Positions *)
(** The first part of an object, or the last, is an empty list or (for the last) an object without
    variables. *)
Section Empty.
  Context {L P : Type}.
  Inductive begins_empty : node L P -> Prop :=
  | begins_list x p : begins_empty (NList x p [])
  | begins_element x p v vs : begins_empty v -> begins_empty (NList x p (v :: vs))
  | begins_field x r p n v fs : begins_empty v -> begins_empty (NObj x r p ((n, v) :: fs)).
  Inductive ends_empty : node L P -> Prop :=
  | ends_list x p : ends_empty (NList x p [])
  | ends_object x r p : ends_empty (NObj x r p [])
  | ends_element x p vs v : ends_empty v -> ends_empty (NList x p (vs ++ [v]))
  | ends_field x r p fs n v : ends_empty v -> ends_empty (NObj x r p (fs ++ [(n, v)])).
End Empty.

(** The variables of a rule: of the items that are not guards *)
Fixpoint variables_of (xs : list item) (ns : list str) : list str :=
  match xs, ns with
  | x :: xs, n :: ns => if is_guard x then variables_of xs ns else n :: variables_of xs ns
  | _, _ => []
  end.
(** A list whose elements do not have a list of the same kind as one of their items *)
Definition not_nested (x : item) : Prop := forall k rs rs', x = IEbnf k rs -> k = Repeat \/ k = RepeatZero -> ~ In (IEbnf k rs') (nth 0 rs []).

(** ** Languages *)
(** What the theorems about objects ask of a language with items [u] and rules [all]: identifiers tell the
    rules apart; two rules of a nonterminal differ in more than guards; the content of a + list is not
    empty. *)
Section Good.
  Context (rules : Z -> list (list item)) (u : item -> Prop) (all : list rule) (rid : rule -> Z) (given : rule -> list str) (symbols : list item) (terminals : Z).
  Definition without_guards (r : list item) : list item := filter (fun i => negb (is_guard i)) r.
  Record good_language : Prop := {
    gl_rules : forall x r, u x -> expands rules x r -> In (mkRule x r) all /\ In x symbols /\ Forall u r;
    gl_only : forall x r, u x -> is_guard x = false -> In (mkRule x r) all -> expands rules x r;
    gl_distinct : NoDup all;
    gl_ids : forall a b, In a all -> In b all -> rid a = rid b -> a = b;
    gl_given : forall r, In r all -> length (given r) = length (r_items r);
    gl_terminals : forall s, u (ITerm s) -> 0 <= s < terminals;
    gl_apart : forall x r r', u x -> repeats x = false -> expands rules x r -> expands rules x r' -> without_guards r = without_guards r' -> r = r';
    gl_content : forall rs, u (IEbnf Repeat rs) -> nth 0 rs [] <> [] }.
End Good.
