(** What a lexer promises to those who add expressions to it and read texts with it. *)
From Verif Require Import Base OrdMap SymbolSetModel SymbolMapModel SymbolMapSpec NdfaModel StateMachineModel SymbolTableModel SymbolTableSpec LexerModel LexerSpec RegexModel RegexSpec LexClassModel.
Local Open Scope Z_scope.

(** Calls, with the expressions as trees *)
Inductive request := Add (r : re) (symbol : Z) | Make (compact : bool) | Read (input : list Z) | Check.
Definition asked (q : request) : call :=
  match q with Add r s => AddSymbol (text r) s | Make c => Compile c | Read t => Stream t | Check => Verify end.

(** The first call that compiles the lexer, or reads a text, fixes it: the expressions in force
    are those added before it. *)
Definition fixes (q : request) : bool := match q with Make _ | Read _ => true | Add _ _ | Check => false end.
Definition fixed (qs : list request) : bool := existsb fixes qs.
Fixpoint in_force (qs : list request) : list (re * Z) :=
  match qs with
  | [] => []
  | Add r s :: qs => (r, s) :: in_force qs
  | Check :: qs => in_force qs
  | _ :: _ => []
  end.

Section Words.
  (** The expressions in force, with their symbols *)
  Context (rules : list (re * Z)).

  (** One of the expressions for the symbol [s] matches [w]. *)
  Definition word (w : list Z) (s : Z) : Prop := exists r, In (r, s) rules /\ RegexSpec.matches true false low up r w.

  (** What has to be cut off a text: the longest non-empty prefix that an expression matches, with
      the lowest of the symbols for it; or, if there is none, one character without a symbol. *)
  Definition first_lexeme (input p : list Z) (s : Z) : Prop :=
    (exists rest, input = p ++ rest) /\
    ((p <> [] /\ word p s /\ (forall s', word p s' -> s <= s') /\
      forall p' rest' s', input = p' ++ rest' -> p' <> [] -> word p' s' -> (length p' <= length p)%nat) \/
     (length p = 1%nat /\ s = -1 /\ forall p' rest' s', input = p' ++ rest' -> p' <> [] -> ~ word p' s')).

  Definition cut_into (input : list Z) (ls : list lexeme) : Prop :=
    contents ls = input /\ forall ls1 l ls2, ls = ls1 ++ l :: ls2 -> first_lexeme (contents (l :: ls2)) (lx_content l) (lx_matched l).
End Words.

(** The answer to a request, given those before it *)
Definition told (before : list request) (q : request) (a : answer) : Prop :=
  match q, a with
  | Add _ _, Done => True
  | Make _, Done => True
  | Read input, Lexemes ls => cut_into (in_force before) input ls
  | Check, Verified ok => ok = negb (fixed before)
  | _, _ => False
  end.

Section Usable.
  Context (expressions literals : list Z -> option (list Z)) (category : list Z -> option symbol_set)
    (defined : list Z -> list (bool * bool * token)).

  (** The requests the theorems cover: the expressions of C11, symbols that are not negative, and
      texts of characters of 16 bits *)
  Definition proper (q : request) : Prop :=
    match q with
    | Add r s => tree_ok expressions literals category defined true false (TRegex r) /\ 0 <= s
    | Read input => forall c, In c input -> 0 <= c < 65536
    | _ => True
    end.

  (** The sets of characters in the expressions are such that they can be made disjoint (see
      C06) and looked up (see C13). *)
  Definition usable (fuel : nat) (rules : list (re * Z)) : Prop :=
    forall d, add_tokens expressions literals category defined fuel ndfa_new true (map (fun p => (false, Regex (text (fst p)), snd p)) rules) = Some d ->
      all_compatible (n_symbols d) /\ forall u, to_ndfa_with_unique_symbols d = Some u -> no_block_after_range (n_symbols u).
End Usable.
