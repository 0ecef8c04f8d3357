(** Independent specification of language blocks: what their definitions and productions mean. *)
From Verif Require Import Base OrdMap TextSpec RegexModel LexStageModel TermDictModel GrammarModel LangModel.
Local Open Scope Z_scope.

(** ** Definitions of terminals *)

(** The token that a definition describes: the text of a regular expression without its slashes,
    the meaning of a quoted string (TextSpec.v), or the name itself. *)
Definition denotes (x : lexeme) (t : token) : Prop :=
  match lx_kind x with
  | KRegex => exists p r q, lx_text x = p :: r ++ [q] /\ t = Regex r
  | KLiteral => t = Literal (lx_name x)
  | KString | KCharacter => exists p body q s, lx_text x = p :: body ++ [q] /\ represents body s /\ t = Literal s
  end.
Definition well_written (x : lexeme) : Prop := (exists t, denotes x t) /\ Z.of_nat (length (lx_text x)) < 2 ^ 64 /\ lx_add x && lx_replace x = false.

(** A definition of a terminal, with what its block says about it *)
Record defn := mkDefn { df_unit : Z; df_weak : bool; df_insensitive : bool; df_sensitive : bool; df_lexeme : lexeme }.
Definition df_name (e : defn) : name := lx_name (df_lexeme e).
Definition name_eqb (n k : name) : bool := if list_eq_dec Z.eq_dec n k then true else false.
Definition replaces (n : name) (e : defn) : bool := name_eqb (df_name e) n && lx_replace (df_lexeme e).
(** The definitions of [n] that are in force: those that no later definition replaces *)
Fixpoint live (n : name) (l : list defn) : list defn :=
  match l with
  | [] => []
  | e :: l => if name_eqb (df_name e) n && negb (existsb (replaces n) l) then e :: live n l else live n l
  end.
(** The names in the order of their first definitions *)
Fixpoint in_order (l : list name) : list name :=
  match l with
  | [] => []
  | n :: l => n :: filter (fun k => negb (name_eqb n k)) (in_order l)
  end.

(** The definitions in the blocks of a language that satisfy [select] *)
Definition block_defs (select : Z -> lexer_block -> bool) (u : lang_unit simple) : list defn :=
  match u with
  | ULexer ty b => if select ty b then map (mkDefn ty (lb_weak b) (lb_insensitive b) (lb_sensitive b)) (lb_lexemes b) else []
  | _ => []
  end.
Definition defs_where (select : Z -> lexer_block -> bool) (l : language simple) : list defn := flat_map (block_defs select) l.
(** The definitions of terminals: the weak ones first, and then the keywords first, then other
    lexer symbols, then ignored symbols *)
Definition explicit_defs (l : language simple) : list defn :=
  flat_map (fun weak => flat_map (fun ty => defs_where (fun ty' b => (ty' =? ty) && eqb (lb_weak b) weak) l) [unit_keywords; unit_lexer; unit_ignore]) [true; false].
(** The definitions of lexer-symbols blocks *)
Definition symbol_defs (l : language simple) : list defn := defs_where (fun ty _ => ty =? unit_symbols) l.

(** The terminals that a production mentions, in order *)
Fixpoint terminals_in (s : simple) : list (term_kind * name * name) :=
  match s with
  | SNonterminal _ _ => []
  | STerminal k source n => [(k, source, n)]
  | SGuard a more => flat_map (flat_map terminals_in) (a :: more)
  | SStar s | SPlus s | SQuestion s => terminals_in s
  | SParen a more => flat_map (flat_map terminals_in) (a :: more)
  end.
Definition productions_of (l : language simple) : list (list simple) := flat_map nd_productions (nonterminals l).
Definition terminals_of (l : language simple) : list (term_kind * name * name) := flat_map (flat_map terminals_in) (productions_of l).
(** A terminal that is only mentioned counts as a weak keyword: a quoted one as its text, a name of
    this language as a regular expression. *)
Definition implicit_def (k : term_kind) (n : name) : defn :=
  mkDefn unit_keywords true false false
    (match k with
     | TName => mkLexeme KRegex n false false (47 :: n ++ [47])
     | TString => mkLexeme KString n false false n
     | TCharacter => mkLexeme KCharacter n false false n
     end).
Fixpoint implicit_defs (known : list name) (l : list (term_kind * name * name)) : list defn :=
  match l with
  | [] => []
  | (k, source, n) :: l =>
      if existsb (name_eqb n) known || match k, source with TName, _ :: _ => true | _, _ => false end then implicit_defs known l
      else implicit_def k n :: implicit_defs (n :: known) l
  end.
(** The definitions of a language, in order; [known] are the names defined before. *)
Definition language_implicit (known : list name) (l : language simple) : list defn := implicit_defs (map df_name (explicit_defs l) ++ known) (terminals_of l).
Definition language_defs (known : list name) (l : language simple) : list defn := explicit_defs l ++ language_implicit known l.
(** The same for a chain of languages *)
Fixpoint chain_defs (known : list name) (ls : list (language simple)) : list defn :=
  match ls with
  | [] => []
  | l :: ls => language_defs known l ++ chain_defs (map df_name (language_defs known l) ++ known) ls
  end.
Fixpoint chain_implicit (known : list name) (ls : list (language simple)) : list defn :=
  match ls with
  | [] => []
  | l :: ls => language_implicit known l ++ chain_implicit (map df_name (language_defs known l) ++ known) ls
  end.

(** A definition is in order after the definitions [before]: '=' defines a new name, 'replace' and
    '|=' need one, and '|=' keeps the kind of the block ([same_unit]). *)
Definition allowed_def (same_unit : bool) (before : list defn) (e : defn) : Prop :=
  let x := df_lexeme e in
  if lx_add x then In (df_name e) (map df_name before) /\ (same_unit = true -> forall e', In e' (live (df_name e) before) -> df_unit e' = df_unit e)
  else if lx_replace x then In (df_name e) (map df_name before)
  else ~ In (df_name e) (map df_name before).
Definition consistent (same_unit : bool) (l : list defn) : Prop := forall before e after, l = before ++ e :: after -> allowed_def same_unit before e.

(** [i] is what the lexer needs to know about the definition [e] when its symbol is [s]. *)
Definition describes (s : Z) (e : defn) (i : lex_item) : Prop :=
  denotes (df_lexeme e) (li_token i) /\ li_insensitive i = df_insensitive e /\ li_symbol i = s /\ li_unit i = df_unit e /\ li_weak i = df_weak e.
Definition describes_symbol (e : defn) (i : bool * bool * token) : Prop :=
  denotes (df_lexeme e) (snd i) /\ fst i = (df_insensitive e, df_sensitive e).

(** Definitions that the parser of language files can produce *)
Definition written_ok (l : language simple) : Prop :=
  (forall ty b x, In (ULexer ty b) l -> In x (lb_lexemes b) -> well_written x) /\
  (forall k source n, In (k, source, n) (terminals_of l) -> well_written (df_lexeme (implicit_def k n))).

(** The terminals that a production mentions outside of its guards *)
Fixpoint plain_terminals (s : simple) : list name :=
  match s with
  | SNonterminal _ _ | SGuard _ _ => []
  | STerminal _ _ n => [n]
  | SStar s | SPlus s | SQuestion s => plain_terminals s
  | SParen a more => flat_map (flat_map plain_terminals) (a :: more)
  end.

Definition no_errors (st : stage) : Prop := forall m, In m (messages st) -> is_error m = false.

(** ** Productions *)

(** The productions of [n] that are in force.  (In a chain of languages, [defs] are the definitions
    of all of them.) *)
Definition replaces_nt (n : name) (d : nt_def simple) : bool := name_eqb (nd_name d) n && match nd_kind d with Replace => true | _ => false end.
Fixpoint live_productions (n : name) (defs : list (nt_def simple)) : list (list simple) :=
  match defs with
  | [] => []
  | d :: defs => (if name_eqb (nd_name d) n && negb (existsb (replaces_nt n) defs) then nd_productions d else []) ++ live_productions n defs
  end.

(** The definitions of nonterminals in a chain of languages, and its productions in force *)
Definition chain_nonterminals (ls : list (language simple)) : list (nt_def simple) := flat_map nonterminals ls.
Definition chain_productions (ls : list (language simple)) (n : name) : list (list simple) := live_productions n (chain_nonterminals ls).
(** The nonterminals that a production mentions *)
Fixpoint nonterminals_in (s : simple) : list name :=
  match s with
  | SNonterminal _ n => [n]
  | STerminal _ _ _ => []
  | SGuard a more => flat_map (flat_map nonterminals_in) (a :: more)
  | SStar s | SPlus s | SQuestion s => nonterminals_in s
  | SParen a more => flat_map (flat_map nonterminals_in) (a :: more)
  end.
(** [n] is defined or mentioned. *)
Definition mentions (d : nt_def simple) (n : name) : Prop := n = nd_name d \/ In n (flat_map (flat_map nonterminals_in) (nd_productions d)).
Definition mentioned_in (defs : list (nt_def simple)) (n : name) : Prop := exists d, In d defs /\ mentions d n.
(** A terminal that a production in force mentions outside of a guard *)
Definition uses (prods : name -> list (list simple)) (t : name) : Prop := exists n p, In p (prods n) /\ In t (flat_map plain_terminals p).
(** No terminal of another language is named. *)
Definition unqualified (l : language simple) : Prop := forall source n, In (TName, source, n) (terminals_of l) -> source = [].

(** The items of a production as written, where [nt] and [tm] are the numbers of nonterminals and
    terminals *)
Section Translate.
  Context (nt tm : name -> Z).
  Fixpoint tr_or (first : list (list item)) (more : list (list (list item))) : list item :=
    match more with
    | [] => concat first
    | next :: more => [IEbnf Alternative [concat first; tr_or next more]]
    end.
  Fixpoint tr (s : simple) : list item :=
    match s with
    | SNonterminal _ n => [INonterm (nt n)]
    | STerminal _ _ n => [ITerm (tm n)]
    | SGuard a more => [IGuard (-1) (tr_or (map tr a) (map (map tr) more))]
    | SStar s => [IEbnf RepeatZero [tr s]]
    | SPlus s => [IEbnf Repeat [tr s]]
    | SQuestion s => [IEbnf Optional [tr s]]
    | SParen a more => tr_or (map tr a) (map (map tr) more)
    end.
  Definition tr_all (l : list simple) : list item := flat_map tr l.
End Translate.

(** What the compiler takes for unused terminals: a language of the chain defines the terminal, and
    neither its grammar nor that of a later language uses it. *)
Inductive unused : list (language simple) -> name -> Prop :=
| unused_new ls l e : In e (language_defs (map df_name (chain_defs [] ls)) l) -> df_unit e <> unit_ignore -> ~ uses (chain_productions (ls ++ [l])) (df_name e) -> unused (ls ++ [l]) (df_name e)
| unused_still ls l n : unused ls n -> ~ uses (chain_productions (ls ++ [l])) n -> unused (ls ++ [l]) n.

(** What items stand for: [stands s w rest], [s] stands for the terminals [w] in a place where
    [rest] follows. *)
Section Stands.
  Context (productions : name -> list (list simple)).
  Inductive stands : simple -> list name -> list name -> Prop :=
  | stands_nonterminal source n p w rest : In p (productions n) -> stands_all p w rest -> stands (SNonterminal source n) w rest
  | stands_terminal k source n rest : stands (STerminal k source n) [n] rest
  | stands_guard a more p w rest : In p (a :: more) -> stands_all p w rest -> stands (SGuard a more) [] (w ++ rest)
  | stands_paren a more p w rest : In p (a :: more) -> stands_all p w rest -> stands (SParen a more) w rest
  | stands_no s rest : stands (SQuestion s) [] rest
  | stands_yes s w rest : stands s w rest -> stands (SQuestion s) w rest
  | stands_star_none s rest : stands (SStar s) [] rest
  | stands_star_more s w1 w2 rest : stands s w1 (w2 ++ rest) -> stands (SStar s) w2 rest -> stands (SStar s) (w1 ++ w2) rest
  | stands_plus_one s w rest : stands s w rest -> stands (SPlus s) w rest
  | stands_plus_more s w1 w2 rest : stands s w1 (w2 ++ rest) -> stands (SPlus s) w2 rest -> stands (SPlus s) (w1 ++ w2) rest
  with stands_all : list simple -> list name -> list name -> Prop :=
  | stands_nil rest : stands_all [] [] rest
  | stands_cons s l w1 w2 rest : stands s w1 (w2 ++ rest) -> stands_all l w2 rest -> stands_all (s :: l) (w1 ++ w2) rest.
End Stands.

(** ** Errors *)

Definition names (l : list defn) : list name := map df_name l.
(** All definitions of terminals and of lexer symbols are in order. *)
Definition chain_consistent (ls : list (language simple)) : Prop := consistent false (flat_map symbol_defs ls) /\ consistent true (chain_defs [] ls).
(** The names in precedence blocks *)
Definition precedence_names {X} (l : language X) : list name := flat_map (fun u => match u with UPrecedence names => names | _ => [] end) l.
(** [n] is defined with '=' although it has productions. *)
Definition duplicate_nonterminal (ls : list (language simple)) (n : name) : Prop :=
  exists before d after, chain_nonterminals ls = before ++ d :: after /\ nd_name d = n /\ nd_kind d = Assignment /\ live_productions n before <> [].
(** [n] has no productions at the end of one of the languages that know it. *)
Definition undefined_nt (ls : list (language simple)) (n : name) : Prop :=
  exists ls1 l ls2, ls = ls1 ++ l :: ls2 /\ mentioned_in (chain_nonterminals (ls1 ++ [l])) n /\ chain_productions (ls1 ++ [l]) n = [].
(** [n] is given a precedence although it is not a terminal. *)
Definition undefined_precedence (ls : list (language simple)) (n : name) : Prop :=
  exists ls1 l ls2, ls = ls1 ++ l :: ls2 /\ In n (precedence_names l) /\ ~ In n (names (chain_defs [] (ls1 ++ [l]))).
(** [n] is an ignored terminal that a production uses. *)
Definition used_ignored (ls : list (language simple)) (n : name) : Prop :=
  exists ls1 ls2, ls = ls1 ++ ls2 /\ uses (chain_productions ls1) n /\ exists e, In e (chain_defs [] ls1) /\ df_name e = n /\ df_unit e = unit_ignore.

(** ** Inheritance *)

(** The languages that [b] inherits from, the one without a parent first, and [b] itself *)
Inductive ancestry (find : name -> option (lang_block simple)) : lang_block simple -> list (language simple) -> Prop :=
| no_parent b : l_inherits b = None -> ancestry find b [l_units b]
| parent b n p ls : l_inherits b = Some n -> find n = Some p -> ancestry find p ls -> ancestry find b (ls ++ [l_units b]).
