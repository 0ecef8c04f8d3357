(** Property theorems about the language stage: terminals (C65), productions (C66), messages (C67). *)
From Verif Require Import Base OrdMap TextSpec RegexModel TermDictModel LexStageModel GrammarModel ClosureSpec RunSpec LangModel LangSpec LangItemProofs LangGramProofs LangLexProofs LangStageProofs LangWordProofs.
Local Open Scope Z_scope.

(** ** The languages of the examples *)

(** The second one inherits from the first.
    weak keywords { if }  lexer { id = /x+/ }  ignore { ws = / / }
    grammar { <S> = if <E> | (<E>* )  <E> = id | [=> id] "+" <E>? }
    and
    lexer { replace id = /y/  id |= /z/  num = /1/ }  grammar { replace <E> = num id  <S> |= num } *)
Definition n_if := [105; 102]. Definition n_id := [105; 100]. Definition n_ws := [119; 115]. Definition n_num := [49].
Definition n_plus := [34; 43; 34]. Definition n_S := [83]. Definition n_E := [69].
Definition regex (n : name) (r : list Z) : lexeme := mkLexeme KRegex n false false (47 :: r ++ [47]).
Definition base : language simple :=
  [ ULexer unit_keywords (mkBlock true false false [mkLexeme KLiteral n_if false false []]);
    ULexer unit_lexer (mkBlock false false false [regex n_id [120; 43]]);
    ULexer unit_ignore (mkBlock false false false [regex n_ws [32]]);
    UGrammar [mkNtDef Assignment n_S [[STerminal TName [] n_if; SNonterminal [] n_E]; [SParen [SStar (SNonterminal [] n_E)] []]];
              mkNtDef Assignment n_E [[STerminal TName [] n_id]; [SGuard [STerminal TName [] n_id] []; STerminal TString [] n_plus; SQuestion (SNonterminal [] n_E)]]] ].
Definition derived : language simple :=
  [ ULexer unit_lexer (mkBlock false false false [mkLexeme KRegex n_id false true (47 :: [121] ++ [47]); mkLexeme KRegex n_id true false (47 :: [122] ++ [47]); regex n_num [49]]);
    UGrammar [mkNtDef Replace n_E [[STerminal TName [] n_num; STerminal TName [] n_id]]; mkNtDef Addition n_S [[STerminal TName [] n_num]]] ].

(** A check that the examples are well written *)
Definition lexeme_ok (x : lexeme) : bool :=
  (length (lx_text x) <? 100)%nat && negb (lx_add x && lx_replace x) &&
  match lx_kind x with
  | KLiteral => true
  | KRegex => (2 <=? length (lx_text x))%nat
  | KString | KCharacter => (2 <=? length (lx_text x))%nat && forallb (fun c => negb (c =? 92)) (lx_text x)
  end.
Definition language_ok (l : language simple) : bool :=
  forallb (fun u => match u with ULexer _ b => forallb lexeme_ok (lb_lexemes b) | _ => true end) l &&
  forallb (fun t => let '(k, _, n) := t in lexeme_ok (df_lexeme (implicit_def k n))) (terminals_of l).
Lemma two_ends (t : list Z) : (2 <= length t)%nat -> exists p r q, t = p :: r ++ [q].
Proof. intros L. destruct t as [|p t]; [cbn in L; lia|]. destruct (exists_last (l := t)) as (r & q & ->); [intros ->; cbn in L; lia|]. exists p, r, q. reflexivity. Qed.
Lemma lexeme_ok_written x : lexeme_ok x = true -> well_written x.
Proof.
  unfold lexeme_ok. rewrite !Bool.andb_true_iff. intros [[L A] K]. apply Nat.ltb_lt in L. split; [|split; [assert (Z.of_nat (length (lx_text x)) < 100) by lia; eapply Z.lt_trans; [eassumption|reflexivity]|apply Bool.negb_true_iff, A]].
  assert (Q : (2 <=? length (lx_text x))%nat && forallb (fun c => negb (c =? 92)) (lx_text x) = true -> exists p body q s, lx_text x = p :: body ++ [q] /\ represents body s).
  { rewrite Bool.andb_true_iff. intros [L2 B]. apply Nat.leb_le in L2. destruct (two_ends _ L2) as (p & r & q & E). exists p, r, q, r. split; [exact E|]. rewrite E in B. cbn [forallb] in B. rewrite forallb_app in B. rewrite !Bool.andb_true_iff in B. destruct B as [_ [B _]]. clear -B. induction r as [|c r IH]; [constructor|]. cbn [forallb] in B. apply Bool.andb_true_iff in B. destruct B as [B1 B2]. apply R_plain; [apply Bool.negb_true_iff in B1; apply Z.eqb_neq, B1|exact (IH B2)]. }
  unfold denotes. destruct (lx_kind x).
  - eexists. reflexivity.
  - destruct (Q K) as (p & b & q & s & E & R). exists (Literal s). exists p, b, q, s. auto.
  - destruct (Q K) as (p & b & q & s & E & R). exists (Literal s). exists p, b, q, s. auto.
  - apply Nat.leb_le in K. destruct (two_ends _ K) as (p & r & q & E). exists (Regex r). exists p, r, q. auto.
Qed.
Lemma language_ok_written l : language_ok l = true -> written_ok l.
Proof.
  unfold language_ok. rewrite Bool.andb_true_iff, !forallb_forall. intros [H1 H2]. split.
  - intros ty b x IU IX. apply lexeme_ok_written. specialize (H1 _ IU). cbv beta iota in H1. rewrite forallb_forall in H1. exact (H1 x IX).
  - intros k source n IT. apply lexeme_ok_written. exact (H2 _ IT).
Qed.
Lemma languages_ok ls : forallb language_ok ls = true -> Forall written_ok ls.
Proof. rewrite forallb_forall, Forall_forall. intros H l IL. apply language_ok_written, H, IL. Qed.
Definition result (ls : list (language simple)) : stage := match compile_chain (map parse_language ls) with Some st => st | None => new_stage end.

(** ** C65: terminals *)

(** Compiling a language block compiles the blocks that it inherits from first, with one state for
    all of them. *)
Theorem C65_inheritance (find : name -> option (lang_block simple)) (b : lang_block simple) (ls : list (language simple)) (fuel : nat) :
  ancestry find b ls -> (length ls <= fuel)%nat ->
  compile (fun n => option_map parse_block (find n)) fuel (parse_block b) =
  match compile_chain (map parse_language ls) with Some st => Compiled st [] | None => Undefined end.
Proof.
  intros A. revert fuel. induction A as [b H|b n p ls H F A IH]; intros fuel L.
  - destruct fuel as [|fuel]; [cbn in L; lia|]. cbn [compile]. change (l_inherits (parse_block b)) with (l_inherits b). rewrite H. unfold compile_chain. cbn [map each parse_block l_units]. destruct (compile_language _ _); reflexivity.
  - rewrite app_length in L. cbn [length] in L. destruct fuel as [|fuel]; [lia|]. cbn [compile]. change (l_inherits (parse_block b)) with (l_inherits b). rewrite H, F. cbn [option_map]. rewrite IH by lia. rewrite compile_chain_snoc. destruct (compile_chain (map parse_language ls)) as [st|]; [|reflexivity]. cbn [parse_block l_units]. destruct (compile_language _ _); reflexivity.
Qed.
Print Assumptions C65_inheritance.
Example C65_inheritance_example : ancestry (fun n => if name_eqb n [98] then Some (mkLang None base) else None) (mkLang (Some [98]) derived) [base; derived].
Proof. apply (parent _ (mkLang (Some [98]) derived) [98] (mkLang None base) [base]); [reflexivity|reflexivity|]. apply (no_parent _ (mkLang None base)). reflexivity. Qed.

(** Languages that inherit from each other are not noticed: the compiler recurses without end. *)
Theorem C65_loop_refuted : exists (find : name -> option (lang_block simple)) b, forall fuel, compile (fun n => option_map parse_block (find n)) fuel (parse_block b) = OutOfFuel.
Proof.
  exists (fun _ => Some (mkLang (Some [97]) base)), (mkLang (Some [97]) base). induction fuel as [|fuel IH]; [reflexivity|].
  cbn [compile]. change (l_inherits (parse_block (mkLang (Some [97]) base))) with (Some [97]). cbv beta iota. cbn [option_map] in *. rewrite IH. reflexivity.
Qed.
Print Assumptions C65_loop_refuted.

(** Languages with well written definitions compile, and the definitions of terminals give an error
    exactly if one of them is not in order. *)
Theorem C65_errors (ls : list (language simple)) : Forall written_ok ls ->
  exists st, compile_chain (map parse_language ls) = Some st /\
    ((forall m, In m (x_messages (s_lex st)) -> is_error m = false) <-> chain_consistent ls).
Proof.
  intros W. destruct (chain_lex_spec ls W) as (st & E & _ & H). exists st. split; [exact E|]. destruct H as [[U C]|[N (m & IM & EM)]].
  - split; [intros _; exact (cl_consistent _ _ _ C)|]. intros _ m. rewrite (cl_messages _ _ _ C). apply warns_no_error.
  - split; [intros H; specialize (H m IM); congruence|intros C; destruct (N C)].
Qed.
Print Assumptions C65_errors.
Lemma chain_state ls st : Forall written_ok ls -> chain_consistent ls -> compile_chain (map parse_language ls) = Some st -> exists U, chain_lex ls U st.
Proof. intros W C E. destruct (chain_lex_spec ls W) as (st' & E' & _ & H). rewrite E in E'. injection E' as <-. destruct H as [H|[N _]]; [exact H|destruct (N C)]. Qed.
Lemma consistent_computed ls : Forall written_ok ls -> forallb (fun m => negb (is_error m)) (x_messages (s_lex (result ls))) = true -> chain_consistent ls /\ compile_chain (map parse_language ls) = Some (result ls).
Proof.
  intros W H. destruct (C65_errors ls W) as (st & E & C). assert (R : result ls = st) by (unfold result; rewrite E; reflexivity). rewrite R in *. split; [|exact E]. apply C. intros m IM. rewrite forallb_forall in H. apply Bool.negb_true_iff, H, IM.
Qed.
Example C65_errors_example : Forall written_ok [base; derived] /\ chain_consistent [base; derived] /\ ~ chain_consistent [base; base].
Proof.
  assert (W : Forall written_ok [base; derived]) by (apply languages_ok; vm_compute; reflexivity). split; [exact W|]. split.
  - apply consistent_computed; [exact W|vm_compute; reflexivity].
  - assert (W2 : Forall written_ok [base; base]) by (apply languages_ok; vm_compute; reflexivity). intros C. destruct (C65_errors _ W2) as (st & E & H). apply H with (m := DuplicateSymbol n_if) in C; [discriminate C|]. vm_compute in E. injection E as <-. vm_compute. left. reflexivity.
Qed.

(** Terminals are numbered from 0 in the order of their first definitions. *)
Theorem C65_symbols (ls : list (language simple)) (st : stage) : Forall written_ok ls -> chain_consistent ls -> compile_chain (map parse_language ls) = Some st ->
  (forall n k, nth_error (in_order (names (chain_defs [] ls))) k = Some n <-> symbol_for_name n (x_terms (s_lex st)) = Z.of_nat k) /\
  (forall n fuel, In n (names (chain_defs [] ls)) -> name_for_symbol (S fuel) (symbol_for_name n (x_terms (s_lex st))) (x_terms (s_lex st)) = Some n) /\
  (forall n, ~ In n (names (chain_defs [] ls)) -> symbol_for_name n (x_terms (s_lex st)) = -1).
Proof.
  intros W C E. destruct (chain_state ls st W C E) as [U H]. pose proof (li_dict _ _ _ _ (cl_lex _ _ _ H)) as D. fold (names (chain_defs [] ls)) in D. split; [|split].
  - intros n k. split.
    + intros N. apply (numbered_symbol _ _ _ _ D). exists k. auto.
    + intros N. assert (I : In n (in_order (names (chain_defs [] ls)))) by (apply (symbol_known _ _ _ D); lia). destruct (symbol_numbered _ _ _ D I) as (j & Hj & Ej). assert (j = k) by lia. subst j. exact Hj.
  - intros n fuel I. apply in_order_in in I. pose proof (symbol_numbered _ _ _ D I) as N. apply (di_back _ _ D) in N. cbn [name_for_symbol]. rewrite (proj2 (mfind_in _ Zltb_strict _ (di_symbols _ _ D) _ _) N). reflexivity.
  - intros n I. apply (symbol_unknown _ _ _ D). intros J. apply I, in_order_in, J.
Qed.
Print Assumptions C65_symbols.
Example C65_symbols_example : in_order (names (chain_defs [] [base; derived])) = [n_if; n_id; n_ws; n_plus; n_num].
Proof. vm_compute. reflexivity. Qed.

(** The lexer gets, for each terminal, its definitions in force, with their texts and options and
    with one symbol and one kind of block for all of them. *)
Theorem C65_definitions (ls : list (language simple)) (st : stage) (n : name) : Forall written_ok ls -> chain_consistent ls -> compile_chain (map parse_language ls) = Some st ->
  Forall2 (describes (symbol_for_name n (x_terms (s_lex st)))) (live n (chain_defs [] ls)) (entries n (x_defs (s_lex st))) /\
  (In n (names (chain_defs [] ls)) -> entries n (x_defs (s_lex st)) <> []) /\
  (forall e, In e (live n (chain_defs [] ls)) -> mfind Z.ltb (symbol_for_name n (x_terms (s_lex st))) (x_type (s_lex st)) = Some (df_unit e)).
Proof.
  intros W C E. destruct (chain_state ls st W C E) as [U H]. pose proof (cl_lex _ _ _ H) as D. split; [|split].
  - exact (li_defs _ _ _ _ D n).
  - intros I. apply live_exists in I. destruct I as [e I]. pose proof (li_defs _ _ _ _ D n) as F. intros N. rewrite N in F. inversion F as [E0|]. rewrite <- E0 in I. destruct I.
  - exact (li_type _ _ _ _ D n).
Qed.
Print Assumptions C65_definitions.
Example C65_definitions_example : map df_lexeme (live n_id (chain_defs [] [base; derived])) = [mkLexeme KRegex n_id false true [47; 121; 47]; mkLexeme KRegex n_id true false [47; 122; 47]] /\
  entries n_id (x_defs (s_lex (result [base; derived]))) = [mkItem (Regex [121]) false 1 unit_lexer false; mkItem (Regex [122]) false 1 unit_lexer false].
Proof. vm_compute. split; reflexivity. Qed.

(** The same for the expressions that lexer-symbols blocks define *)
Theorem C65_expressions (ls : list (language simple)) (st : stage) (n : name) : Forall written_ok ls -> chain_consistent ls -> compile_chain (map parse_language ls) = Some st ->
  Forall2 describes_symbol (live n (flat_map symbol_defs ls)) (entries n (x_exprs (s_lex st))).
Proof. intros W C E. destruct (chain_state ls st W C E) as [U H]. exact (proj2 (cl_expr _ _ _ H) n). Qed.
Print Assumptions C65_expressions.
Definition digits : language simple := [ULexer unit_symbols (mkBlock false true false [regex [100] [48]; mkLexeme KRegex [100] true false [47; 49; 47]])].
Example C65_expressions_example : Forall written_ok [digits] /\ chain_consistent [digits] /\ entries [100] (x_exprs (s_lex (result [digits]))) = [(true, false, Regex [48]); (true, false, Regex [49])].
Proof.
  assert (W : Forall written_ok [digits]) by (apply languages_ok; vm_compute; reflexivity). split; [exact W|]. split; [|vm_compute; reflexivity]. apply consistent_computed; [exact W|vm_compute; reflexivity].
Qed.

(** The weak symbols and the ignored symbols are those of the terminals with a weak or an ignored
    definition in force, if no definition replaces one of another block. *)
Theorem C65_sets_partial (ls : list (language simple)) (st : stage) (n : name) : Forall written_ok ls -> chain_consistent ls -> compile_chain (map parse_language ls) = Some st ->
  (forall e, In e (chain_defs [] ls) -> lx_replace (df_lexeme e) = false) -> In n (names (chain_defs [] ls)) ->
  (In (symbol_for_name n (x_terms (s_lex st))) (x_weak (s_lex st)) <-> exists e, In e (live n (chain_defs [] ls)) /\ df_weak e = true) /\
  (In (symbol_for_name n (x_terms (s_lex st))) (x_ignored (s_lex st)) <-> exists e, In e (live n (chain_defs [] ls)) /\ df_unit e = unit_ignore).
Proof.
  intros W C E R I. destruct (chain_state ls st W C E) as [U H]. pose proof (cl_lex _ _ _ H) as D.
  assert (L : forall e, In e (chain_defs [] ls) -> df_name e = n -> In e (live n (chain_defs [] ls))).
  { clear -R. induction (chain_defs [] ls) as [|e' l IH]; intros e IE EN; [destruct IE|]. cbn [live].
    assert (X : existsb (replaces n) l = false).
    { apply Bool.not_true_iff_false. intros X. apply existsb_exists in X. destruct X as (x & IX & RX). unfold replaces in RX. apply Bool.andb_true_iff in RX. rewrite (R x (or_intror IX)) in RX. destruct RX; discriminate. }
    rewrite X. cbn [negb]. rewrite Bool.andb_true_r. specialize (IH (fun x IX => R x (or_intror IX))). destruct IE as [->|IE].
    - rewrite (proj2 (name_eqb_true _ _) EN). left. reflexivity.
    - destruct (name_eqb _ _); [right|]; apply IH; assumption. }
  change (symbol_for_name n (x_terms (s_lex st))) with (sym (s_lex st) n). split; [rewrite (li_weak_set _ _ _ _ D)|rewrite (li_ignored_set _ _ _ _ D)].
  - split.
    + intros (e & IE & WE & S). exists e. split; [|exact WE]. apply L; [exact IE|]. symmetry. eapply lex_inv_inj; [exact D|exact I|exact S].
    + intros (e & IE & WE). apply live_in in IE. destruct IE as [IE EN]. exists e. rewrite EN. auto.
  - split.
    + intros (e & IE & WE & S). exists e. split; [|exact WE]. apply L; [exact IE|]. symmetry. eapply lex_inv_inj; [exact D|exact I|exact S].
    + intros (e & IE & WE). apply live_in in IE. destruct IE as [IE EN]. exists e. rewrite EN. auto.
Qed.
Print Assumptions C65_sets_partial.
Example C65_sets_example : chain_consistent [base] /\ (forall e, In e (chain_defs [] [base]) -> lx_replace (df_lexeme e) = false) /\ x_weak (s_lex (result [base])) = [0; 3] /\ x_ignored (s_lex (result [base])) = [2].
Proof.
  split; [apply consistent_computed; [apply languages_ok|]; vm_compute; reflexivity|]. split; [|vm_compute; split; reflexivity].
  intros e IE. change (chain_defs [] [base]) with (chain_defs [] [base]) in IE. vm_compute in IE. repeat (destruct IE as [<-|IE]; [reflexivity|]). destruct IE.
Qed.

(** A definition that replaces one leaves the terminal among the weak and the ignored symbols. *)
Definition weak_then_strong : list (language simple) :=
  [ [ULexer unit_keywords (mkBlock true false false [mkLexeme KLiteral n_if false false []]); ULexer unit_ignore (mkBlock false false false [regex n_ws [32]])];
    [ULexer unit_keywords (mkBlock false false false [mkLexeme KLiteral n_if false true []]); ULexer unit_lexer (mkBlock false false false [mkLexeme KRegex n_ws false true [47; 32; 47]])] ].
Theorem C65_replaced_sets_refuted : exists ls st n1 n2, Forall written_ok ls /\ chain_consistent ls /\ compile_chain (map parse_language ls) = Some st /\
  In n1 (names (chain_defs [] ls)) /\ In (symbol_for_name n1 (x_terms (s_lex st))) (x_weak (s_lex st)) /\ (forall e, In e (live n1 (chain_defs [] ls)) -> df_weak e = false) /\
  In n2 (names (chain_defs [] ls)) /\ In (symbol_for_name n2 (x_terms (s_lex st))) (x_ignored (s_lex st)) /\ (forall e, In e (live n2 (chain_defs [] ls)) -> df_unit e = unit_lexer).
Proof.
  exists weak_then_strong, (result weak_then_strong), n_if, n_ws. assert (W : Forall written_ok weak_then_strong) by (apply languages_ok; vm_compute; reflexivity). split; [exact W|].
  destruct (consistent_computed _ W) as [C E]; [vm_compute; reflexivity|]. split; [exact C|]. split; [exact E|].
  split; [vm_compute; auto|]. split; [vm_compute; auto|]. split; [intros e IE; vm_compute in IE; destruct IE as [<-|[]]; reflexivity|].
  split; [vm_compute; auto|]. split; [vm_compute; auto|]. intros e IE; vm_compute in IE; destruct IE as [<-|[]]; reflexivity.
Qed.
Print Assumptions C65_replaced_sets_refuted.

(** ** C66: productions *)

Lemma chain_grammar ls st : Forall written_ok ls -> Forall unqualified ls -> chain_consistent ls -> compile_chain (map parse_language ls) = Some st -> chain_lex ls (unused ls) st /\ chain_gram ls st.
Proof. intros W Q C E. destruct (chain_gram_spec ls W Q C) as (st' & E' & H). rewrite E in E'. injection E' as <-. exact H. Qed.
Lemma example_unqualified ls : forallb (fun l => forallb (fun t => let '(k, s, _) := t in match k, s with TName, _ :: _ => false | _, _ => true end) (terminals_of l)) ls = true -> Forall unqualified ls.
Proof.
  rewrite forallb_forall, Forall_forall. intros H l IL source n IT. specialize (H l IL). rewrite forallb_forall in H. specialize (H _ IT). cbv beta iota in H. destruct source; [reflexivity|discriminate H].
Qed.

(** The nonterminals of the grammar are those that the languages define or mention; the rules of
    each are its productions in force, in order. *)
Theorem C66_rules_partial (ls : list (language simple)) (st : stage) : Forall written_ok ls -> Forall unqualified ls -> chain_consistent ls -> compile_chain (map parse_language ls) = Some st ->
  (forall n, mentioned_in (chain_nonterminals ls) n <-> exists id, In (n, id) (name_nt (g_ids (s_gram st)))) /\
  (forall n k id, In (n, id) (name_nt (g_ids (s_gram st))) -> In (k, id) (name_nt (g_ids (s_gram st))) -> n = k) /\
  (forall nt n id, (forall k i, In (k, i) (name_nt (g_ids (s_gram st))) -> nt k = i) -> In (n, id) (name_nt (g_ids (s_gram st))) ->
    rules_of (g_rules (s_gram st)) id = map (tr_all nt (fun t => symbol_for_name t (x_terms (s_lex st)))) (chain_productions ls n)) /\
  (forall id, rules_of (g_rules (s_gram st)) id <> [] -> exists n, In (n, id) (name_nt (g_ids (s_gram st)))).
Proof.
  intros W Q C E. destruct (chain_grammar ls st W Q C E) as [HL HG]. pose proof (cg_gram _ _ HG) as G. pose proof (gm_ids _ _ _ _ G) as O. split; [|split; [|split]].
  - intros n. symmetry. exact (gm_known _ _ _ _ G n).
  - intros n k id H1 H2. apply (nt_of_inj _ n k O); [exists id; exact H1|]. rewrite (nt_of_in _ _ _ O H1), (nt_of_in _ _ _ O H2). reflexivity.
  - intros nt n id N H. rewrite <- (nt_of_in _ _ _ O H). rewrite (gm_rules _ _ _ _ G n) by (exists id; exact H). apply map_ext_in. intros p IP. unfold items_for. apply tr_all_ext.
    + intros k IK. pose proof (gm_nts _ _ _ _ G n p k IP IK) as [i Hi]. rewrite (N _ _ Hi), (nt_of_in _ _ _ O Hi). reflexivity.
    + reflexivity.
  - intros id R. destruct (gm_only _ _ _ _ G id R) as (n & K & ->). exists n. apply nt_of_known; assumption.
Qed.
Print Assumptions C66_rules_partial.
Example C66_rules_example : Forall unqualified [base; derived] /\
  chain_productions [base; derived] n_S = [[STerminal TName [] n_if; SNonterminal [] n_E]; [SParen [SStar (SNonterminal [] n_E)] []]; [STerminal TName [] n_num]] /\
  chain_productions [base; derived] n_E = [[STerminal TName [] n_num; STerminal TName [] n_id]] /\
  exists s e, name_nt (g_ids (s_gram (result [base; derived]))) = [(n_E, e); (n_S, s)] /\
    rules_of (g_rules (s_gram (result [base; derived]))) s = [[ITerm 0; INonterm e]; [IEbnf RepeatZero [[INonterm e]]]; [ITerm 4]] /\
    rules_of (g_rules (s_gram (result [base; derived]))) e = [[ITerm 4; ITerm 1]].
Proof. split; [apply example_unqualified; vm_compute; reflexivity|]. split; [reflexivity|]. split; [reflexivity|]. eexists _, _. split; [vm_compute; reflexivity|]. vm_compute. split; reflexivity. Qed.

(** The rules describe the same words as the productions do: lexemes whose symbols are those of the
    terminals [u], before the lexemes of [v], have a parse tree for a nonterminal exactly if it
    stands for [u]. *)
Theorem C66_language_partial (ls : list (language simple)) (st : stage) (rid : rule -> Z) (ident : item -> Z) (L : Type) (matched : L -> Z) (renamed : Z -> L -> L)
    (source n : name) (id : Z) (u v : list name) (w rest : list L) :
  Forall written_ok ls -> Forall unqualified ls -> chain_consistent ls -> compile_chain (map parse_language ls) = Some st ->
  In (n, id) (name_nt (g_ids (s_gram st))) ->
  map matched w = map (fun t => symbol_for_name t (x_terms (s_lex st))) u -> map matched rest = map (fun t => symbol_for_name t (x_terms (s_lex st))) v ->
  (stands (chain_productions ls) (SNonterminal source n) u v <->
   exists tree, parses (rules_of (g_rules (s_gram st))) rid ident L matched renamed (fun _ _ => False) (fun _ => False) (INonterm id) tree w rest).
Proof.
  intros W Q C E H E1 E2. destruct (chain_grammar ls st W Q C E) as [HL HG]. pose proof (cg_gram _ _ HG) as G. pose proof (gm_ids _ _ _ _ G) as O. rewrite <- (nt_of_in _ _ _ O H).
  apply (nonterminal_words _ _ (nt_of (g_ids (s_gram st))) (sym (s_lex st)) (known (g_ids (s_gram st))) (fun t => In t (names (chain_defs [] ls)))); [| | |exists id; exact H|exact E1|exact E2].
  - intros k K. exact (gm_rules _ _ _ _ G k K).
  - intros k p K IP. apply Forall_forall. intros s IS. split.
    + intros m IM. apply (gm_nts _ _ _ _ G k p m IP). apply in_flat_map. exists s. auto.
    + intros tk src m IM. destruct (production_terminals ls k p m IP) as (l & k' & src' & IL & IT); [apply in_map_iff; exists (tk, src, m); split; [reflexivity|]; apply in_flat_map; exists s; auto|]. eapply terminals_known; eassumption.
  - intros a b IA. apply (lex_inv_inj _ _ _ _ _ _ (cl_lex _ _ _ HL)). exact IA.
Qed.
Print Assumptions C66_language_partial.
(** 'num id num id' is an <S>. *)
Example C66_language_example : stands (chain_productions [base; derived]) (SNonterminal [] n_S) [n_num; n_id; n_num; n_id] [] /\
  map (fun t => symbol_for_name t (x_terms (s_lex (result [base; derived])))) [n_num; n_id; n_num; n_id] = [4; 1; 4; 1].
Proof.
  split; [|vm_compute; reflexivity]. eapply stands_nonterminal; [right; left; reflexivity|].
  assert (EE : forall rest, stands (chain_productions [base; derived]) (SNonterminal [] n_E) [n_num; n_id] rest).
  { intros rest. eapply stands_nonterminal; [left; reflexivity|]. change [n_num; n_id] with ([n_num] ++ [n_id] ++ []). constructor; [apply stands_terminal|]. constructor; [apply stands_terminal|constructor]. }
  change [n_num; n_id; n_num; n_id] with (([n_num; n_id] ++ [n_num; n_id] ++ []) ++ []). constructor; [|constructor]. eapply stands_paren; [left; reflexivity|].
  rewrite <- (app_nil_r ([n_num; n_id] ++ _)). constructor; [|constructor]. apply stands_star_more; [apply EE|]. apply stands_star_more; [apply EE|]. apply stands_star_none.
Qed.

(** A terminal of another language may be missing: its production then has a symbol that no lexeme
    has, and nothing is reported. *)
Definition other_language : list (language simple) := [[UGrammar [mkNtDef Assignment n_S [[STerminal TName [108] n_id]]]]].
Theorem C66_other_language_refuted : exists ls st n id u, Forall written_ok ls /\ chain_consistent ls /\ compile_chain (map parse_language ls) = Some st /\ no_errors st /\ report_unused_symbols (s_lex st) = [] /\
  In (n, id) (name_nt (g_ids (s_gram st))) /\ stands (chain_productions ls) (SNonterminal [] n) u [] /\
  rules_of (g_rules (s_gram st)) id = [[ITerm (-1)]].
Proof.
  exists other_language, (result other_language), n_S. assert (W : Forall written_ok other_language) by (apply languages_ok; vm_compute; reflexivity).
  destruct (consistent_computed _ W) as [C E]; [vm_compute; reflexivity|]. eexists _, [n_id]. split; [exact W|]. split; [exact C|]. split; [exact E|]. split; [intros m IM; vm_compute in IM; destruct IM|]. split; [vm_compute; reflexivity|].
  split; [vm_compute; left; reflexivity|]. split; [|vm_compute; reflexivity].
  eapply stands_nonterminal; [left; reflexivity|]. change [n_id] with ([n_id] ++ []). constructor; [apply stands_terminal|constructor].
Qed.
Print Assumptions C66_other_language_refuted.

(** ** C67: messages *)

(** All messages about languages whose definitions of terminals are in order *)
Theorem C67_messages_partial (ls : list (language simple)) (st : stage) (m : message) : Forall written_ok ls -> Forall unqualified ls -> chain_consistent ls -> compile_chain (map parse_language ls) = Some st ->
  (In m (messages st) <->
   (exists e, m = ImplicitSymbol (df_name e) /\ In e (chain_implicit [] ls) /\ lx_kind (df_lexeme e) = KRegex) \/
   (exists n, m = DuplicateNonterminal n /\ duplicate_nonterminal ls n) \/
   (exists n, m = UndefinedNonterminal n /\ undefined_nt ls n) \/
   (exists n, m = UndefinedTerminal n /\ undefined_precedence ls n)).
Proof.
  intros W Q C E. destruct (chain_grammar ls st W Q C E) as [HL HG]. unfold messages. rewrite in_app_iff, (cl_messages _ _ _ HL), (cg_messages _ _ HG).
  assert (X : In m (flat_map warns (chain_implicit [] ls)) <-> exists e, m = ImplicitSymbol (df_name e) /\ In e (chain_implicit [] ls) /\ lx_kind (df_lexeme e) = KRegex).
  { rewrite in_flat_map. split.
    - intros (e & IE & IM). unfold warns in IM. exists e. destruct (lx_kind (df_lexeme e)); try destruct IM as [<-|[]]; try destruct IM. auto.
    - intros (e & -> & IE & K). exists e. split; [exact IE|]. unfold warns. rewrite K. left. reflexivity. }
  rewrite X. reflexivity.
Qed.
Print Assumptions C67_messages_partial.

(** There is no error exactly if the definitions of terminals are in order, no nonterminal is
    defined twice, each one that is mentioned is defined, and precedences are given to terminals. *)
Theorem C67_errors_partial (ls : list (language simple)) (st : stage) : Forall written_ok ls -> Forall unqualified ls -> compile_chain (map parse_language ls) = Some st ->
  (no_errors st <-> chain_consistent ls /\ (forall n, ~ duplicate_nonterminal ls n) /\ (forall n, ~ undefined_nt ls n) /\ (forall n, ~ undefined_precedence ls n)).
Proof.
  intros W Q E. split.
  - intros N. assert (C : chain_consistent ls).
    { destruct (C65_errors ls W) as (st' & E' & C). rewrite E in E'. injection E' as <-. apply C. intros m IM. apply N. unfold messages. apply in_app_iff. left. exact IM. }
    split; [exact C|]. pose proof (fun m => C67_messages_partial ls st m W Q C E) as M. split; [|split]; intros n H.
    + discriminate (N (DuplicateNonterminal n) (proj2 (M _) (or_intror (or_introl (ex_intro _ n (conj eq_refl H)))))).
    + discriminate (N (UndefinedNonterminal n) (proj2 (M _) (or_intror (or_intror (or_introl (ex_intro _ n (conj eq_refl H))))))).
    + discriminate (N (UndefinedTerminal n) (proj2 (M _) (or_intror (or_intror (or_intror (ex_intro _ n (conj eq_refl H))))))).
  - intros (C & D & U & P) m IM. apply (C67_messages_partial ls st m W Q C E) in IM. destruct IM as [(e & -> & _)|[(n & -> & H)|[(n & -> & H)|(n & -> & H)]]]; [reflexivity|destruct (D n H)|destruct (U n H)|destruct (P n H)].
Qed.
Print Assumptions C67_errors_partial.
(** precedence { + }  grammar { <S> = x <E>  <S> = <S> } *)
Definition faulty : list (language simple) := [[UPrecedence [n_plus]; UGrammar [mkNtDef Assignment n_S [[STerminal TName [] n_id; SNonterminal [] n_E]]; mkNtDef Assignment n_S [[SNonterminal [] n_S]]]]].
Example C67_errors_example : Forall written_ok faulty /\ Forall unqualified faulty /\ chain_consistent faulty /\
  messages (result faulty) = [ImplicitSymbol n_id; DuplicateNonterminal n_S; UndefinedTerminal n_plus; UndefinedNonterminal n_E] /\ messages (result [base; derived]) = [].
Proof.
  assert (W : Forall written_ok faulty) by (apply languages_ok; vm_compute; reflexivity). split; [exact W|]. split; [apply example_unqualified; vm_compute; reflexivity|]. split; [apply consistent_computed; [exact W|vm_compute; reflexivity]|]. vm_compute. split; reflexivity.
Qed.

(** The report of unused symbols at the end *)
Theorem C67_unused_partial (ls : list (language simple)) (st : stage) (m : message) : Forall written_ok ls -> Forall unqualified ls -> chain_consistent ls -> compile_chain (map parse_language ls) = Some st ->
  (In m (report_unused_symbols (s_lex st)) <->
   (exists n, m = UnusedSymbol n /\ unused ls n /\ In n (names (flat_map explicit_defs ls))) \/
   (exists n, m = UnknownUnusedSymbol (symbol_for_name n (x_terms (s_lex st))) /\ unused ls n /\ ~ In n (names (flat_map explicit_defs ls)))).
Proof.
  intros W Q C E. destruct (chain_grammar ls st W Q C E) as [HL HG]. pose proof (cl_lex _ _ _ HL) as D. destruct (C65_symbols ls st W C E) as (_ & BACK & _).
  assert (B : forall n, unused ls n -> (if smem Z.ltb (sym (s_lex st) n) (x_where (s_lex st)) then UnusedSymbol (match name_for_symbol (S (length (symbol_name (x_terms (s_lex st))))) (sym (s_lex st) n) (x_terms (s_lex st)) with Some n => n | None => [] end) else UnknownUnusedSymbol (sym (s_lex st) n)) =
    (if in_dec (list_eq_dec Z.eq_dec) n (names (flat_map explicit_defs ls)) then UnusedSymbol n else UnknownUnusedSymbol (sym (s_lex st) n))).
  { intros n U. pose proof (li_unused_known _ _ _ _ D n U) as K. unfold sym at 2. rewrite (BACK n _ K). destruct (in_dec _ _ _) as [I|I].
    - replace (smem Z.ltb _ _) with true; [reflexivity|]. symmetry. apply (smem_in _ Zltb_strict _ (li_where_sorted _ _ _ _ D)). apply (li_where _ _ _ _ D). exists n. auto.
    - replace (smem Z.ltb _ _) with false; [reflexivity|]. symmetry. apply Bool.not_true_iff_false. intros X. apply (smem_in _ Zltb_strict _ (li_where_sorted _ _ _ _ D)) in X. apply (li_where _ _ _ _ D) in X. destruct X as (k & IK & S). apply (lex_inv_inj _ _ _ _ _ _ D K) in S. subst k. exact (I IK). }
  unfold report_unused_symbols. rewrite in_map_iff. split.
  - intros (s & <- & IS). apply (li_unused _ _ _ _ D) in IS. destruct IS as (n & U & ->). rewrite (B n U). destruct (in_dec _ _ _) as [I|I]; [left|right]; exists n; auto.
  - intros [(n & -> & U & I)|(n & -> & U & I)]; exists (sym (s_lex st) n); (split; [rewrite (B n U); destruct (in_dec _ _ _); [reflexivity || contradiction|reflexivity || contradiction]|apply (li_unused _ _ _ _ D); exists n; auto]).
Qed.
Print Assumptions C67_unused_partial.

(** The ignored symbols that the grammar uses *)
Theorem C67_used_ignored_partial (ls : list (language simple)) (st : stage) (s : Z) : Forall written_ok ls -> Forall unqualified ls -> chain_consistent ls -> compile_chain (map parse_language ls) = Some st ->
  (In s (s_used_ignored st) <-> exists n, used_ignored ls n /\ s = symbol_for_name n (x_terms (s_lex st))).
Proof. intros W Q C E. destruct (chain_grammar ls st W Q C E) as [HL HG]. exact (cg_used _ _ HG s). Qed.
Print Assumptions C67_used_ignored_partial.
(** lexer { id = /x/  num = /1/ }  ignore { ws = / / }  grammar { <S> = id ws } *)
Definition spaced : list (language simple) :=
  [[ULexer unit_lexer (mkBlock false false false [regex n_id [120]; regex n_num [49]]); ULexer unit_ignore (mkBlock false false false [regex n_ws [32]]); UGrammar [mkNtDef Assignment n_S [[STerminal TName [] n_id; STerminal TName [] n_ws]]]]].
Example C67_unused_example : Forall written_ok spaced /\ Forall unqualified spaced /\ chain_consistent spaced /\ report_unused_symbols (s_lex (result spaced)) = [UnusedSymbol n_num] /\ s_used_ignored (result spaced) = [2].
Proof.
  assert (W : Forall written_ok spaced) by (apply languages_ok; vm_compute; reflexivity). split; [exact W|]. split; [apply example_unqualified; vm_compute; reflexivity|]. split; [apply consistent_computed; [exact W|vm_compute; reflexivity]|]. vm_compute. split; reflexivity.
Qed.

(** An operator that needs a nonterminal is accepted without one. *)
Definition adding : list (language simple) := [[UGrammar [mkNtDef Addition n_S [[]]; mkNtDef Replace n_E [[]]]]].
Theorem C67_addition_refuted : exists ls st d1 d2 rest, Forall written_ok ls /\ compile_chain (map parse_language ls) = Some st /\ chain_nonterminals ls = d1 :: d2 :: rest /\
  nd_kind d1 = Addition /\ nd_kind d2 = Replace /\ nd_name d1 <> nd_name d2 /\ messages st = [] /\ report_unused_symbols (s_lex st) = [].
Proof.
  exists adding, (result adding). eexists _, _, _. split; [apply languages_ok; vm_compute; reflexivity|]. split; [vm_compute; reflexivity|]. split; [reflexivity|]. split; [reflexivity|]. split; [reflexivity|]. split; [discriminate|]. vm_compute. split; reflexivity.
Qed.
Print Assumptions C67_addition_refuted.

(** Terminals that are used in guards only are reported as unused; one without a definition is an
    internal error, and an ignored one does not count as used. *)
Definition guarded : list (language simple) :=
  [[ULexer unit_lexer (mkBlock false false false [regex n_id [120]; regex n_num [49]]); ULexer unit_ignore (mkBlock false false false [regex n_ws [32]]);
    UGrammar [mkNtDef Assignment n_S [[SGuard [STerminal TName [] n_id; STerminal TName [] n_ws; STerminal TString [] n_plus] []; STerminal TName [] n_num]]]]].
Theorem C67_guards_refuted : exists ls st p guard n1 n2 n3, Forall written_ok ls /\ compile_chain (map parse_language ls) = Some st /\ no_errors st /\
  chain_productions ls n_S = [p] /\ In guard p /\ Forall (fun n => exists k, In (k, [], n) (terminals_in guard)) [n1; n2; n3] /\
  In (UnusedSymbol n1) (report_unused_symbols (s_lex st)) /\ In (UnknownUnusedSymbol (symbol_for_name n2 (x_terms (s_lex st)))) (report_unused_symbols (s_lex st)) /\
  In (symbol_for_name n3 (x_terms (s_lex st))) (x_ignored (s_lex st)) /\ s_used_ignored st = [].
Proof.
  exists guarded, (result guarded). eexists _, _, n_id, n_plus, n_ws. split; [apply languages_ok; vm_compute; reflexivity|]. split; [vm_compute; reflexivity|]. split; [intros m IM; vm_compute in IM; destruct IM|]. split; [reflexivity|]. split; [left; reflexivity|].
  split; [repeat constructor; eexists; vm_compute; eauto|]. vm_compute. auto 10.
Qed.
Print Assumptions C67_guards_refuted.

(** A terminal whose only use is replaced is not reported. *)
Definition replaced : list (language simple) :=
  [[ULexer unit_lexer (mkBlock false false false [regex n_id [120]; regex n_num [49]]); UGrammar [mkNtDef Assignment n_S [[STerminal TName [] n_id]]]];
   [UGrammar [mkNtDef Replace n_S [[STerminal TName [] n_num]]]]].
Theorem C67_replaced_refuted : exists ls st n, Forall written_ok ls /\ Forall unqualified ls /\ compile_chain (map parse_language ls) = Some st /\ no_errors st /\
  In n (names (flat_map explicit_defs ls)) /\ ~ uses (chain_productions ls) n /\ report_unused_symbols (s_lex st) = [].
Proof.
  exists replaced, (result replaced), n_id. split; [apply languages_ok; vm_compute; reflexivity|]. split; [apply example_unqualified; vm_compute; reflexivity|]. split; [vm_compute; reflexivity|]. split; [intros m IM; vm_compute in IM; destruct IM|]. split; [left; reflexivity|]. split; [|vm_compute; reflexivity].
  intros (k & p & IP & IT). unfold chain_productions in IP. change (chain_nonterminals replaced) with [mkNtDef Assignment n_S [[STerminal TName [] n_id]]; mkNtDef Replace n_S [[STerminal TName [] n_num]]] in IP. cbn [live_productions existsb] in IP. unfold replaces_nt in IP. cbn [nd_name nd_kind nd_productions] in IP.
  destruct (name_eqb n_S k); cbn in IP; [|destruct IP]. destruct IP as [<-|[]]. vm_compute in IT. destruct IT as [IT|[]]. discriminate IT.
Qed.
Print Assumptions C67_replaced_refuted.
