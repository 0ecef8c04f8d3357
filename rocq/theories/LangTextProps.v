(** C68: from a language block to the texts that its parser accepts. *)
From Verif Require Import Base OrdMap SymbolSetModel SymbolMapSpec NdfaModel NdfaReduceModel NdfaReduceSpec SymbolTableModel SymbolTableSpec StateMachineModel StateMachineSpec LexerModel LexerSpec RegexModel RegexSpec LexStageModel LexStageSpec TermDictModel TermDictSpec WeakLexModel WeakLexSpec LexStageProps WeakLexProps
  GrammarModel FirstModel FirstSpec FirstProofs FollowProofs FollowProps LrItemModel LrItemProofs ClosureModel ClosureSpec MachineModel BuilderModel ActionModel TableModel TableProofs TableProps RunModel RunSpec RunTool RewriteModel ConflictModel StageModel StageSpec StageProps BuilderProps ClosureProps ConflictProps RunProps FirstProps CompleteProps
  LangModel LangSpec LangTextSpec LangItemProofs LangLexProofs LangGramProofs LangStageProofs LangWordProofs LangProps LangParseProofs LangTextProofs.
Local Open Scope Z_scope.

(** The items of a nonterminal of the language say what the productions as written stand for. *)
Lemma nonterminal_says ls st n id w : Forall written_ok ls -> Forall unqualified ls -> chain_consistent ls -> compile_chain (map parse_language ls) = Some st -> In (n, id) (name_nt (g_ids (s_gram st))) ->
  (says (LangModel.rules_of (g_rules (s_gram st))) (INonterm id) w [] <->
   exists u, w = map (fun t => symbol_for_name t (x_terms (s_lex st))) u /\ Forall (fun t => In t (names (chain_defs [] ls))) u /\ stands (chain_productions ls) (SNonterminal [] n) u []).
Proof.
  intros W Q C E H. destruct (chain_grammar ls st W Q C E) as [HL HG]. pose proof (cg_gram _ _ HG) as G. pose proof (gm_ids _ _ _ _ G) as O. rewrite <- (nt_of_in _ _ _ O H).
  set (K := known (g_ids (s_gram st))). set (T := fun t => In t (names (chain_defs [] ls))). set (nt := nt_of (g_ids (s_gram st))).
  assert (RULES : forall k, K k -> LangModel.rules_of (g_rules (s_gram st)) (nt k) = map (tr_all nt (sym (s_lex st))) (chain_productions ls k)) by (intros k; exact (gm_rules _ _ _ _ G k)).
  assert (GOOD : forall k p, K k -> In p (chain_productions ls k) -> Forall (good K T) p).
  { intros k p _ IP. apply Forall_forall. intros s IS. split.
    + intros m IM. apply (gm_nts _ _ _ _ G k p m IP). apply in_flat_map. exists s. auto.
    + intros tk src m IM. destruct (production_terminals ls k p m IP) as (l & k' & src' & IL & IT); [apply in_map_iff; exists (tk, src, m); split; [reflexivity|]; apply in_flat_map; exists s; auto|]. eapply terminals_known; eassumption. }
  assert (INJ : forall a b, T a -> sym (s_lex st) a = sym (s_lex st) b -> a = b) by (intros a b IA; apply (lex_inv_inj _ _ _ _ _ _ (cl_lex _ _ _ HL)); exact IA).
  assert (GN : good K T (SNonterminal [] n)) by (split; [intros m [<-|[]]; exists id; exact H|intros k s m []]).
  split.
  - intros S. destruct (proj1 (says_image _ _ nt (sym (s_lex st)) K T RULES GOOD) _ _ _ S (SNonterminal [] n)) as (u & -> & FU); [split; [exact Logic.I|split; [exact GN|reflexivity]]|].
    exists u. split; [reflexivity|]. split; [exact FU|]. eapply (proj1 (says_stands _ _ nt (sym (s_lex st)) K T RULES GOOD INJ)); [exact S|split; [exact Logic.I|split; [exact GN|reflexivity]]|reflexivity|reflexivity].
  - intros (u & -> & _ & S). apply (proj1 (stands_says _ _ nt (sym (s_lex st)) K T RULES GOOD) _ _ _ S) in GN. apply says_all_one in GN. exact GN.
Qed.

(** The parser that is made for a language decides, for the symbols of its lexemes, whether they
    are those of a sequence of terminals that the start symbol stands for.  Missing from the full
    property: what C59 leaves out, precedence blocks, and weak terminals that stand for strong
    ones. *)
Theorem C68_parser_partial (ls : list (language simple)) (st : stage) (n : name) (id : Z)
  rid rule_of ident sort sort_weak first_of us rank languages busy width sources can_clash o weak closures lr1 fuel ms d k :
  Forall written_ok ls -> Forall unqualified ls -> chain_consistent ls -> compile_chain (map parse_language ls) = Some st ->
  injective rid -> (forall i j : item, ident i = ident j -> i = j) -> sorts entry_ltb sort ->
  workable (LangModel.rules_of (g_rules (s_gram st))) us rank languages -> answered (LangModel.rules_of (g_rules (s_gram st))) (fun i => In i us) first_of ->
  (forall n stack i, (width <= count_occ item_dec stack i)%nat -> busy n stack i = true) -> o_lr1 o = false ->
  (forall s, In s (x_ignored (s_lex st)) -> ~ In (ITerm s) us) -> w_weak_for weak = [] ->
  make_parser rid first_of (LangModel.rules_of (g_rules (s_gram st))) busy sources can_clash o
    (stage_rewriters o (fun _ => []) weak closures (fun _ _ => NotSpecified) lr1 (x_ignored (s_lex st))) fuel languages = Some (ms, d) ->
  (forall g, In g ms -> reports_conflict g = false) -> clear_end (d_actions d) -> TableProps.fits rid rule_of (d_actions d) ->
  In (n, id) (name_nt (g_ids (s_gram st))) -> nth_error languages k = Some (INonterm id) ->
  exists q, nth_error (d_initial d) k = Some q /\
  forall (L : Type) (matched : L -> Z) (renamed : Z -> L -> L) (V : Type) (shift_value : option L -> V) (reduce_value : Z -> Z -> list V -> V) (v0 : V) (input : list L),
  exists steps b p,
    (forall more, (steps <= more)%nat -> parse (make_tables rid rule_of ident sort sort_weak (d_actions d) []) L matched renamed V shift_value reduce_value more (start_parser L V q v0 input) = Done (b, p)) /\
    (b = true <-> exists u, map matched (filter (fun x => negb (existsb (Z.eqb (matched x)) (x_ignored (s_lex st)))) input) = map (fun t => symbol_for_name t (x_terms (s_lex st))) u /\
      Forall (fun t => In t (names (chain_defs [] ls))) u /\ stands (chain_productions ls) (SNonterminal [] n) u []).
Proof.
  intros W Q C E RI IN SO WK AN BB L1 IG WE MK NR CE FI NI NL.
  rewrite (make_parser_alike _ _ _ _ _ _ _ _ (simple_stage o closures lr1 (x_ignored (s_lex st)))) in MK by (intros m; apply weak_alike, WE).
  destruct (C59_language_partial rid rule_of ident sort sort_weak first_of _ us rank languages busy width sources can_clash o closures lr1 _ fuel ms d RI IN SO WK AN BB L1 IG MK NR CE FI k _ NL) as (q & Q1 & P).
  exists q. split; [exact Q1|]. intros L matched renamed V sv rv v0 input. destruct (P L matched renamed V sv rv v0 input) as (steps & b & p & R & B). exists steps, b, p. split; [exact R|]. rewrite B.
  rewrite (derivation_words _ (fun i => In i us)) with (rid := rid) (ident := ident) (renamed := renamed).
  - apply nonterminal_says; assumption.
  - intros i U. pose proof (wk_items _ _ _ _ WK i U) as X. destruct i; try exact Logic.I; destruct X.
  - intros i r j U X J. eapply (StageProofs.work_expands _ us rank languages WK); eassumption.
  - apply (wk_languages _ _ _ _ WK). eapply nth_error_In, NL.
Qed.
Print Assumptions C68_parser_partial.

(** *** The lexer and the parser of a language *)

(** lexer_stage.cpp 500-512: the weak symbols as a set of items *)
Definition weak_items (st : stage) : iset := fold_left (fun s t => iinsert (ITerm t) s) (x_weak (s_lex st)) no_items.

(** Everything together: the lexer and the parser that are made for a language end on every text, and
    accept it exactly if it is spelled by terminals that the start symbol stands for.  Missing from
    the full property: what C68_parser_partial and C64_lexer_partial leave out; terminals whose
    definitions differ in kind, and texts that both weak and strong definitions match. *)
Theorem C68_text_partial (ls : list (language simple)) (st : stage) (tree_of : token -> tree) (n : name) (id : Z)
  (* the lexer *)
  expressions literals category fuel dfuel rfuel (compact merge : bool) nfa dfa dfa' weak_to_strong T' r kind step
  (* the parser *)
  rid rule_of ident sort sort_weak first_of us rank languages busy width sources can_clash o closures lr1 pfuel ms d k :
  let defined := fun m => entries m (x_exprs (s_lex st)) in
  let used := fun s => smem Z.ltb s (s_used_ignored st) in
  let rules := LangModel.rules_of (g_rules (s_gram st)) in
  (* the language *)
  Forall written_ok ls -> Forall unqualified ls -> chain_consistent ls -> compile_chain (map parse_language ls) = Some st ->
  clear_kinds tree_of (chain_defs [] ls) ->
  (forall e t, In e (chain_defs [] ls) -> denotes (df_lexeme e) t -> tree_text (tree_of t) = t /\ tree_ok expressions literals category defined false (df_insensitive e) (tree_of t)) ->
  (* the lexer stage *)
  stage_ndfa expressions literals category defined used fuel (stage_items st) = Some nfa -> all_compatible (n_symbols nfa) ->
  stage_dfa expressions literals category defined used fuel dfuel (stage_items st) = Some dfa ->
  max_symbol (x_terms (s_lex st)) <= no_symbol -> weak_dfa (weak_symbol st) (lift_actions dfa) (x_terms (s_lex st)) = (dfa', weak_to_strong, T') ->
  (compact = true -> exists f, NdfaReduceSpec.first_accepting dfa' [0%nat] f /\ forall p, (p < NdfaModel.count_states dfa')%nat -> p <> 0%nat -> ~ accepting dfa' p -> NdfaReduceSpec.told_apart dfa' [0%nat] f p) ->
  stage_reduce compact merge rfuel dfa' = Some r -> machine_of kind r step -> no_block_after_range (n_symbols r) -> SymbolTableSpec.fits kind (n_symbols r) ->
  (* the parser stage *)
  injective rid -> (forall i j : item, ident i = ident j -> i = j) -> sorts entry_ltb sort ->
  workable rules us rank languages -> answered rules (fun i => In i us) first_of ->
  (forall n stack i, (width <= count_occ item_dec stack i)%nat -> busy n stack i = true) -> o_lr1 o = false ->
  (forall s, In s (x_ignored (s_lex st)) -> ~ In (ITerm s) us) ->
  make_parser rid first_of rules busy sources can_clash o
    (stage_rewriters o (fun _ => []) (weak_record weak_to_strong (weak_items st) no_weak) closures (fun _ _ => NotSpecified) lr1 (x_ignored (s_lex st))) pfuel languages = Some (ms, d) ->
  (forall g, In g ms -> reports_conflict g = false) -> clear_end (d_actions d) -> TableProps.fits rid rule_of (d_actions d) ->
  In (n, id) (name_nt (g_ids (s_gram st))) -> nth_error languages k = Some (INonterm id) ->
  exists q, nth_error (d_initial d) k = Some q /\
  forall (renamed : Z -> LexerModel.lexeme -> LexerModel.lexeme) (V : Type) (shift_value : option LexerModel.lexeme -> V) (reduce_value : Z -> Z -> list V -> V) (v0 : V) (text : list Z) (m : nat),
  (forall c, In c text -> 0 <= c < kind_limit kind) -> (length text < m)%nat ->
  exists lexemes stream, read_all step (accept_at (accept_table any_less any_symbol r)) 0 m (fun _ => None) (stream_new 0 text) [] = Some (lexemes, stream) /\ contents lexemes = text /\
  exists steps b p,
    (forall more, (steps <= more)%nat -> parse (make_tables rid rule_of ident sort sort_weak (d_actions d) []) LexerModel.lexeme lx_matched renamed V shift_value reduce_value more (start_parser LexerModel.lexeme V q v0 lexemes) = Done (b, p)) /\
    (b = true <-> exists u, spells tree_of (chain_defs [] ls) text u /\ stands (chain_productions ls) (SNonterminal [] n) u []).
Proof.
  intros defined used rules W Q C E CK READ EN AC ED MX EW CP ER MO NB FT RI IN SO WK AN BB L1 IG MK NR CE FI NI NL.
  destruct (chain_grammar ls st W Q C E) as [HL _]. pose proof (cl_lex _ _ _ HL) as LI. destruct (di_log _ _ (li_dict _ _ _ _ LI)) as (lg & AF & EL).
  rewrite <- (stage_defs_items ls st _ HL tree_of expressions literals category defined READ) in EN, ED. pose proof (stage_defs_ok ls st _ HL tree_of expressions literals category defined READ) as OK.
  assert (ENT : forall i, In i (stage_defs st tree_of) -> exists n, TermDictSpec.entry n (ld_symbol i) lg).
  { intros i I. unfold stage_defs in I. apply in_map_iff in I. destruct I as (j & <- & J). destruct (item_known ls st _ HL j J) as (n' & e & IE & _ & _ & E3 & _). exists n'. apply EL. cbn [ld_symbol]. rewrite E3. apply (symbol_numbered _ _ _ (li_dict _ _ _ _ LI)). apply in_order_in. apply (live_name ls _ e IE). }
  pose proof (stage_weak ls st _ HL tree_of used CK) as WEAK. pose proof (stage_no_clash ls st _ HL tree_of used CK) as NC.
  assert (WN : weak_to_strong = []).
  { destruct (C64_table_partial expressions literals category defined used (weak_symbol st) (stage_defs st tree_of) fuel dfuel nfa dfa _ lg dfa' weak_to_strong T' OK EN AC ED AF MX ENT WEAK EW) as (S & TB & _). destruct weak_to_strong as [|[c s] rest]; [reflexivity|].
    destruct (TB c s) as (w & W1 & W2 & (W3 & W4 & _)); [apply (mfind_in _ Zltb_strict _ S); left; reflexivity|]. exfalso. apply (NC w). split; [exists (parent_of c T'); auto|exists s; auto]. }
  destruct (C68_parser_partial ls st n id rid rule_of ident sort sort_weak first_of us rank languages busy width sources can_clash o (weak_record weak_to_strong (weak_items st) no_weak) closures lr1 pfuel ms d k W Q C E RI IN SO WK AN BB L1 IG) as (q & Q1 & P); try assumption.
  { rewrite WN. reflexivity. }
  exists q. split; [exact Q1|]. intros renamed V sv rv v0 text m TX LM.
  destruct (C64_lexer_partial expressions literals category defined used (weak_symbol st) (stage_defs st tree_of) fuel dfuel rfuel compact merge nfa dfa _ lg dfa' weak_to_strong T' r kind step text m OK EN AC ED AF MX ENT WEAK EW CP ER MO NB FT TX LM) as (lexemes & stream & R & CT & CUT).
  exists lexemes, stream. split; [exact R|]. split; [exact CT|]. destruct (P LexerModel.lexeme lx_matched renamed V sv rv v0 lexemes) as (steps & b & p & RUN & B). exists steps, b, p. split; [exact RUN|]. rewrite B.
  assert (CUT' : forall l1 x l2, lexemes = l1 ++ x :: l2 -> cuts used (stage_defs st tree_of) (contents (x :: l2)) (lx_content x) (lx_matched x)).
  { intros l1 x l2 EX. destruct (CUT l1 x l2 EX) as [X Y]. split; [exact X|]. destruct Y as [(Y1 & Y2 & Y3)|Y]; [left|right; exact Y]. split; [exact Y1|]. split; [|exact Y3]. destruct Y2 as [(_ & G)|(CL & _)]; [exact G|destruct (NC _ CL)]. }
  pose proof (lexemes_spell ls st _ HL tree_of used CK lexemes CUT') as SP. rewrite CT in SP. split.
  - intros (u & U1 & U2 & U3). exists u. split; [apply SP; split; assumption|exact U3].
  - intros (u & U1 & U2). apply SP in U1. destruct U1 as [U1 U3]. exists u. split; [exact U1|]. split; assumption.
Qed.
Print Assumptions C68_text_partial.

(** *** A concrete language: id = /x+/, ignored / /, S = S "+" id | id.  The quoted terminal is a weak
    keyword. *)
Definition sums : list (language simple) :=
  [[ULexer unit_lexer (mkBlock false false false [regex n_id [120; 43]]); ULexer unit_ignore (mkBlock false false false [regex n_ws [32]]);
    UGrammar [mkNtDef Assignment n_S [[SNonterminal [] n_S; STerminal TString [] n_plus; STerminal TName [] n_id]; [STerminal TName [] n_id]]]]].
Definition sums_tree (t : token) : tree := match t with Literal s => TLiteral s | Regex [c] => TRegex (chr c) | Regex _ => TRegex (RPlus (chr 120)) end.
Definition sums_st : stage := Eval vm_compute in result sums.
Definition sums_defined (m : list Z) := entries m (x_exprs (s_lex sums_st)).
Definition sums_used (s : Z) := smem Z.ltb s (s_used_ignored sums_st).
Definition sums_n : ndfa language_action := Eval vm_compute in
  match stage_ndfa no_names no_names no_category sums_defined sums_used 20 (stage_items sums_st) with Some n => n | None => ndfa_new end.
Definition sums_d : ndfa language_action := Eval vm_compute in
  match stage_dfa no_names no_names no_category sums_defined sums_used 20 20 (stage_items sums_st) with Some d => d | None => ndfa_new end.
Definition sums_w : ndfa any_action := Eval vm_compute in fst (fst (weak_dfa (weak_symbol sums_st) (lift_actions sums_d) (x_terms (s_lex sums_st)))).
Definition sums_r : ndfa any_action := Eval vm_compute in match stage_reduce true true 20 sums_w with Some r => r | None => ndfa_new end.
Definition sums_rules (n : Z) : list (list item) := if n =? 1 then [[INonterm 1; ITerm 2; ITerm 0]; [ITerm 0]] else [].
Definition sums_items : list item := [INonterm 1; ITerm 0; ITerm 2].
Definition sums_make : option (list StageModel.message * made_parser) :=
  make_parser rule_number (first_by (LangModel.rules_of (g_rules (s_gram sums_st))) 20) (LangModel.rules_of (g_rules (s_gram sums_st))) one_object no_sources (fun _ _ => false) quiet
    (stage_rewriters quiet (fun _ => []) (weak_record [] (weak_items sums_st) no_weak) no_closures (fun _ _ => NotSpecified) keep (x_ignored (s_lex sums_st))) 100 [INonterm 1].

Lemma sums_rules_eq n : LangModel.rules_of (g_rules (s_gram sums_st)) n = sums_rules n.
Proof.
  unfold LangModel.rules_of, sums_rules. cbn [sums_st s_gram g_rules mfind]. destruct (Z.eqb_spec n 1) as [->|N]; [reflexivity|].
  destruct (Z.ltb_spec n 1), (Z.ltb_spec 1 n); try reflexivity; lia.
Qed.
Lemma sums_nullable rules i : (forall n, rules n = sums_rules n) -> nullable rules i -> match i with INonterm _ | ITerm _ => False | _ => True end.
Proof.
  intros R. set (P := fun i : item => match i with INonterm _ | ITerm _ => False | _ => True end). change (nullable rules i -> P i).
  apply (nullable_ind2 rules P (Forall P)); try constructor; try assumption. clear i. intros i r B _ F.
  destruct i as [| | |t|n|p l|k rs]; try exact Logic.I; [destruct B|]. cbn [has_body] in B. rewrite R in B. unfold sums_rules in B. destruct (n =? 1); [|destruct B]. destruct B as [<-|[<-|[]]]; inversion F; assumption.
Qed.
Lemma sums_workable rules : (forall n, rules n = sums_rules n) -> workable rules sums_items (fun i => match i with INonterm _ => 1 | _ => 0 end)%nat [INonterm 1].
Proof.
  intros R.
  assert (CASES : forall i r, In i sums_items -> has_body rules i r -> i = INonterm 1 /\ (r = [INonterm 1; ITerm 2; ITerm 0] \/ r = [ITerm 0])).
  { intros i r U B. unfold sums_items, In in U. repeat (destruct U as [U|U]; [subst i; cbn [has_body] in B; try (destruct B; fail)|]); [|destruct U]. rewrite R in B. cbn in B. intuition auto. }
  split.
  - intros i U. unfold sums_items, In in U. repeat (destruct U as [<-|U]; [exact Logic.I|]). destruct U.
  - intros i r j U B J. destruct (CASES i r U B) as (_ & [-> | ->]); cbn in J; unfold sums_items; cbn [In]; intuition auto.
  - intros k rs r U. unfold sums_items, In in U. repeat (destruct U as [U|U]; [discriminate U|]). destruct U.
  - intros rs U. unfold sums_items, In in U. repeat (destruct U as [U|U]; [discriminate U|]). destruct U.
  - intros i pre y post U B N. destruct (CASES i _ U B) as (-> & [E | E]); destruct pre as [|a pre]; try discriminate E; injection E as -> E.
    + right. split; [reflexivity|]. intros NY. exact (sums_nullable _ _ R NY).
    + exfalso. inversion N as [|? ? N1 N2]; subst. exact (sums_nullable _ _ R N1).
    + left. cbn. lia.
    + exfalso. inversion N as [|? ? N1 N2]; subst. exact (sums_nullable _ _ R N1).
  - intros n a r b i k c U E NR NI. assert (Bi : In (i :: k) (rules n)) by (rewrite E; apply in_app_iff; right; right; apply in_elt).
    destruct (CASES (INonterm n) _ U Bi) as (_ & [X | X]); injection X as -> ->; destruct (sums_nullable _ _ R NI).
  - intros l [<-|[]]. left. reflexivity.
Qed.
Lemma sums_defs e : In e (chain_defs [] sums) -> e = mkDefn unit_lexer false false false (regex n_id [120; 43]) \/ e = mkDefn unit_ignore false false false (regex n_ws [32]) \/ e = implicit_def TString n_plus.
Proof. change (chain_defs [] sums) with [mkDefn unit_lexer false false false (regex n_id [120; 43]); mkDefn unit_ignore false false false (regex n_ws [32]); implicit_def TString n_plus]. cbn [In]. intuition auto. Qed.
Lemma sums_denote e t : In e (chain_defs [] sums) -> denotes (df_lexeme e) t ->
  (df_weak e = false /\ (t = Regex [120; 43] \/ t = Regex [32])) \/ (df_weak e = true /\ t = Literal [43]).
Proof.
  intros I D. destruct (sums_defs e I) as [->|[->| ->]]; cbn [denotes df_lexeme regex implicit_def lx_kind lx_text] in D.
  - destruct D as (p & r & q & E & ->). left. split; [reflexivity|]. left. injection E as _ E. change (120 :: 43 :: [47]) with ([120; 43] ++ [47]) in E. apply app_inj_tail in E. destruct E as [<- _]. reflexivity.
  - destruct D as (p & r & q & E & ->). left. split; [reflexivity|]. right. injection E as _ E. change (32 :: [47]) with ([32] ++ [47]) in E. apply app_inj_tail in E. destruct E as [<- _]. reflexivity.
  - destruct D as (p & b & q & s & E & R & ->). right. split; [reflexivity|]. injection E as _ E. change (43 :: [34]) with ([43] ++ [34]) in E. apply app_inj_tail in E. destruct E as [<- _].
    inversion R; subst; try (match goal with H : TextSpec.represents [] _ |- _ => inversion H; subst end); try reflexivity; try discriminate; try contradiction.
Qed.
Lemma sums_head t w : tree_matches false false (sums_tree t) w ->
  (t = Literal [43] -> exists v, w = 43 :: v) /\ (t = Regex [120; 43] -> exists v, w = 120 :: v) /\ (t = Regex [32] -> exists v, w = 32 :: v).
Proof.
  intros M. split; [|split]; intros ->; cbn [sums_tree tree_matches RegexSpec.matches chr l_word] in M.
  - destruct M as (u & v & -> & (x & (y & Y & [<-|(X & _)]) & ->) & _); [|discriminate X]. cbn in Y. subst. eexists. reflexivity.
  - destruct M as (u & v & -> & (x & (y & Y & [<-|(X & _)]) & ->) & _); [|discriminate X]. cbn in Y. subst. eexists. reflexivity.
  - destruct M as (x & (y & Y & [<-|(X & _)]) & ->); [|discriminate X]. cbn in Y. subst. eexists. reflexivity.
Qed.
Lemma sums_kinds : clear_kinds sums_tree (chain_defs [] sums).
Proof.
  split.
  - intros e e' I I' N U. destruct (sums_defs e I) as [->|[->| ->]]; try discriminate U. destruct (sums_defs e' I') as [->|[->| ->]]; try discriminate N. reflexivity.
  - intros e e' I I' N. destruct (sums_defs e I) as [->|[->| ->]]; destruct (sums_defs e' I') as [->|[->| ->]]; try discriminate N; reflexivity.
  - intros e I U. destruct (sums_defs e I) as [->|[->| ->]]; try discriminate U. reflexivity.
  - intros w n e n' e' (I & k & D & M) (I' & k' & D' & M'). apply live_in in I. apply live_in in I'. destruct I as [I _], I' as [I' _].
    assert (C : forall e, In e (chain_defs [] sums) -> df_insensitive e = false) by (intros e0 I0; destruct (sums_defs e0 I0) as [->|[->| ->]]; reflexivity). rewrite (C e I) in M. rewrite (C e' I') in M'.
    apply sums_head in M. apply sums_head in M'. destruct M as (M1 & M2 & M3), M' as (M1' & M2' & M3').
    destruct (sums_denote e k I D) as [(-> & [K|K])|(-> & K)]; destruct (sums_denote e' k' I' D') as [(-> & [K'|K'])|(-> & K')]; try reflexivity;
      (destruct (M1 K) as (v & V) || destruct (M2 K) as (v & V) || destruct (M3 K) as (v & V)); (destruct (M1' K') as (v' & V') || destruct (M2' K') as (v' & V') || destruct (M3' K') as (v' & V')); congruence.
Qed.
(** The theorem applies: on every text of bytes, the lexer and the parser for [sums] end, and accept
    exactly the texts that are spelled by terminals for which S stands. *)
Example C68_nontrivial : exists d q, sums_make = Some ([], d) /\ forall text m, (forall c, In c text -> 0 <= c < 256) -> (length text < m)%nat ->
  exists lexemes stream, read_all (compact_run Kchar sums_r (n_states sums_r)) (accept_at (accept_table any_less any_symbol sums_r)) 0 m (fun _ => None) (stream_new 0 text) [] = Some (lexemes, stream) /\ contents lexemes = text /\
  exists steps b p,
    (forall more, (steps <= more)%nat -> parse (make_tables rule_number (rule_in (made_rules d)) item_number (insertion_sort entry_ltb) (insertion_sort weak_ltb) (d_actions d) []) LexerModel.lexeme lx_matched (fun _ l => l) unit (fun _ => tt) (fun _ _ _ => tt) more (start_parser LexerModel.lexeme unit q tt lexemes) = Done (b, p)) /\
    (b = true <-> exists u, spells sums_tree (chain_defs [] sums) text u /\ stands (chain_productions sums) (SNonterminal [] n_S) u []).
Proof.
  destruct sums_make as [[ms d]|] eqn:MK; [|vm_compute in MK; discriminate MK].
  assert (F : fits_check (made_rules d) (d_actions d) = true /\ accept_check (d_actions d) = true /\ ms = []) by (vm_compute in MK; injection MK as <- <-; split; [vm_compute; reflexivity|split; [vm_compute; reflexivity|reflexivity]]).
  destruct F as (F1 & F2 & ->).
  assert (W : Forall written_ok sums) by (apply languages_ok; vm_compute; reflexivity).
  destruct (consistent_computed sums W) as [C E]; [vm_compute; reflexivity|]. change (result sums) with sums_st in E.
  assert (AL : forall i r, In r (SymbolMapModel.sm_get (n_symbols sums_r) i) -> hi r < 256 /\ 0 <= lo r < 256).
  { intros i r H. unfold SymbolMapModel.sm_get in H. destruct ((i <? 0) || (Z.of_nat (length (SymbolMapModel.sm_sets (n_symbols sums_r))) <=? i)); [destruct H|].
    assert (FA : forallb (fun s => forallb (fun r => (hi r <? 256) && ((0 <=? lo r) && (lo r <? 256))) s) (SymbolMapModel.sm_sets (n_symbols sums_r)) = true) by (vm_compute; reflexivity).
    destruct (Nat.lt_ge_cases (Z.to_nat i) (length (SymbolMapModel.sm_sets (n_symbols sums_r)))) as [L|L]; [|rewrite nth_overflow in H by exact L; destruct H].
    rewrite forallb_forall in FA. specialize (FA _ (nth_In _ [] L)). rewrite forallb_forall in FA. specialize (FA r H). apply andb_prop in FA as (FA1 & FA2).
    apply andb_prop in FA2 as (FA2 & FA3). apply Z.ltb_lt in FA1, FA3. apply Z.leb_le in FA2. auto. }
  destruct (C68_text_partial sums sums_st sums_tree n_S 1 no_names no_names no_category 20 20 20 true true sums_n sums_d sums_w [] (x_terms (s_lex sums_st)) sums_r Kchar (compact_run Kchar sums_r (n_states sums_r))
    rule_number (rule_in (made_rules d)) item_number (insertion_sort entry_ltb) (insertion_sort weak_ltb) (first_by (LangModel.rules_of (g_rules (s_gram sums_st))) 20) sums_items (fun i => match i with INonterm _ => 1 | _ => 0 end)%nat [INonterm 1] one_object 1 no_sources (fun _ _ => false) quiet no_closures keep 100 [] d 0) as (q & Q & P).
  - exact W.
  - apply example_unqualified. vm_compute. reflexivity.
  - exact C.
  - exact E.
  - exact sums_kinds.
  - intros e t I D. assert (CI : df_insensitive e = false) by (destruct (sums_defs e I) as [->|[->| ->]]; reflexivity). rewrite CI. destruct (sums_denote e t I D) as [(_ & [->| ->])|(_ & ->)]; (split; [reflexivity|]).
    + cbn [sums_tree tree_ok]. split; [|reflexivity]. cbn [well_formed_in chr]. split; [split; small|split; discriminate].
    + cbn [sums_tree tree_ok]. split; [|reflexivity]. cbn [well_formed_in chr]. split; [split; small|split; discriminate].
    + repeat constructor; unfold c_MaxSymbol; lia.
  - vm_compute. reflexivity.
  - apply DedupProofs.all_compatible_b_sound. vm_compute. reflexivity.
  - vm_compute. reflexivity.
  - vm_compute. discriminate.
  - vm_compute. reflexivity.
  - intros _. exists 1%nat. split.
    + split; [vm_compute; lia|]. split; [intros [X|[]]; discriminate|]. split; [vm_compute; discriminate|]. intros p Hp N. destruct p; [|lia]. destruct N. left. reflexivity.
    + intros p P N A. exfalso. apply A. change (NdfaModel.count_states sums_w) with 4%nat in P. unfold accepting. destruct p as [|[|[|[|p]]]]; try lia; vm_compute; discriminate.
  - vm_compute. reflexivity.
  - right. exists (n_states sums_r). split; [|reflexivity]. split; [reflexivity|]. intros p row N.
    destruct p as [|[|[|[|p]]]]; try (destruct p; discriminate N); injection N as <-; (split; [intros t; reflexivity|split; [reflexivity|repeat constructor; cbn; lia]]).
  - intros i j r r' H1 H2 _ (z & D). destruct (AL j r' H2). lia.
  - intros _ i r H. apply (AL i r H).
  - apply rule_number_injective.
  - apply item_number_injective.
  - apply entry_sorts.
  - apply sums_workable, sums_rules_eq.
  - split; [intros i; unfold first_by; destruct (first _ 20 i []) as [[c' s]|] eqn:FE; [|constructor]; eapply (first_set_ok _ 20 i [] c' s); [split; [constructor|intros j t []]|exact FE]|]. intros i U. exists [], 20%nat. unfold sums_items, In in U. repeat (destruct U as [<-|U]; [eexists; split; [constructor|vm_compute; reflexivity]|]). destruct U.
  - apply one_object_bound.
  - reflexivity.
  - intros s [<-|[]] U. unfold sums_items, In in U. repeat (destruct U as [U|U]; [discriminate U|]). destruct U.
  - exact MK.
  - intros g [].
  - apply clear_checked, F2.
  - apply fits_checked, F1.
  - left. reflexivity.
  - reflexivity.
  - exists d, q. split; [reflexivity|]. intros text m TX LM. apply (P (fun _ l => l) unit (fun _ => tt) (fun _ _ _ => tt) tt text m TX LM).
Qed.

(** ** Where the full statement fails *)

(** S = A B 'c', A = 'a', B = B 'b' | (nothing): nothing is reported, and the parser that is made does not accept "abc" (see C59_first_refuted). *)
Definition q_a := [39; 97; 39]. Definition q_b := [39; 98; 39]. Definition q_c := [39; 99; 39]. Definition n_A := [65]. Definition n_B := [66].
Definition letters : list (language simple) :=
  [[UGrammar [mkNtDef Assignment n_S [[SNonterminal [] n_A; SNonterminal [] n_B; STerminal TCharacter [] q_c]]; mkNtDef Assignment n_A [[STerminal TCharacter [] q_a]];
              mkNtDef Assignment n_B [[SNonterminal [] n_B; STerminal TCharacter [] q_b]; []]]]].
Definition letters_tree (t : token) : tree := match t with Literal s => TLiteral s | Regex _ => TLiteral [] end.
Definition letters_st : stage := Eval vm_compute in result letters.
Definition letters_defined (m : list Z) := entries m (x_exprs (s_lex letters_st)).
Definition letters_d : ndfa language_action := Eval vm_compute in
  match stage_dfa no_names no_names no_category letters_defined (fun _ => false) 20 20 (stage_items letters_st) with Some d => d | None => ndfa_new end.
Definition letters_w : ndfa any_action := Eval vm_compute in fst (fst (weak_dfa (weak_symbol letters_st) (lift_actions letters_d) (x_terms (s_lex letters_st)))).
Definition letters_r : ndfa any_action := Eval vm_compute in match stage_reduce true true 20 letters_w with Some r => r | None => ndfa_new end.
Definition letters_make : option (list StageModel.message * made_parser) :=
  make_parser rule_number (first_by (LangModel.rules_of (g_rules (s_gram letters_st))) 20) (LangModel.rules_of (g_rules (s_gram letters_st))) one_object no_sources (fun _ _ => false) quiet
    (stage_rewriters quiet (fun _ => []) (weak_record [] (weak_items letters_st) no_weak) no_closures (fun _ _ => NotSpecified) keep (x_ignored (s_lex letters_st))) 100 [INonterm 1].

Lemma letters_takes n e w : takes letters_tree (chain_defs [] letters) n e w -> df_unit e = unit_keywords /\ ((n = q_a /\ w = [97]) \/ (n = q_b /\ w = [98]) \/ (n = q_c /\ w = [99])).
Proof.
  intros (I & k & D & M). apply live_in in I. destruct I as [I <-].
  assert (H : forall c e, e = implicit_def TCharacter [39; c; 39] -> c <> 92 -> denotes (df_lexeme e) k -> tree_matches false (df_insensitive e) (letters_tree k) w -> w = [c]).
  { clear. intros c e -> NC D M. cbn [denotes df_lexeme implicit_def lx_kind lx_text] in D. destruct D as (p & b & q & s & E & R & ->). injection E as _ E. change (c :: [39]) with ([c] ++ [39]) in E. apply app_inj_tail in E. destruct E as [<- _].
    assert (s = [c]) as -> by (inversion R; subst; try contradiction; match goal with H : TextSpec.represents [] _ |- _ => inversion H; subst end; reflexivity).
    cbn [df_insensitive implicit_def letters_tree tree_matches l_word] in M. destruct M as (u & v & -> & (y & (z & -> & [<-|(X & _)]) & ->) & ->); [reflexivity|discriminate X]. }
  change (chain_defs [] letters) with [implicit_def TCharacter q_c; implicit_def TCharacter q_a; implicit_def TCharacter q_b] in I.
  destruct I as [<-|[<-|[<-|[]]]]; (split; [reflexivity|]); [right; right|left|right; left]; (split; [reflexivity|]); eapply H; try exact D; try exact M; try reflexivity; discriminate.
Qed.
Lemma letters_word c n rest u : (n = q_a /\ c = 97) \/ (n = q_b /\ c = 98) \/ (n = q_c /\ c = 99) ->
  spells letters_tree (chain_defs [] letters) rest u -> spells letters_tree (chain_defs [] letters) (c :: rest) (n :: u).
Proof.
  intros H S. change (c :: rest) with ([c] ++ rest). apply spells_word; [..|exact S].
  - split; [discriminate|]. intros p' rest' n' e E N T. apply letters_takes in T. destruct T as (_ & [(_ & ->)|[(_ & ->)|(_ & ->)]]); cbn; lia.
  - exists (implicit_def TCharacter n). split.
    + split; [destruct H as [(-> & ->)|[(-> & ->)|(-> & ->)]]; vm_compute; auto|]. exists (Literal [c]). split.
      * exists 39, [c], 39, [c]. split; [destruct H as [(-> & ->)|[(-> & ->)|(-> & ->)]]; reflexivity|]. split; [|reflexivity]. apply TextSpec.R_plain; [lia|constructor].
      * apply lit_matches. reflexivity.
    + intros n' e' T [P|(_ & _ & (i & j & N1 & N2 & L))]; apply letters_takes in T; destruct T as (U & T); [rewrite U in P; cbn in P; lia|].
      assert (n' = n) as -> by (destruct H as [(-> & ->)|[(-> & ->)|(-> & ->)]]; destruct T as [(-> & T)|[(-> & T)|(-> & T)]]; try reflexivity; discriminate T).
      assert (ND : NoDup (in_order (names (chain_defs [] letters)))) by (vm_compute; repeat constructor; cbn; intuition discriminate).
      assert (i = j) by (eapply (NoDup_nth_error (in_order (names (chain_defs [] letters)))); [exact ND|apply nth_error_Some; congruence|congruence]). lia.
  - intros (e & IE & U). assert (T : forall e, In e (chain_defs [] letters) -> df_unit e = unit_keywords) by (intros e0 [<-|[<-|[<-|[]]]]; reflexivity). apply live_in in IE. rewrite (T e (proj1 IE)) in U. discriminate U.
Qed.
Theorem C68_first_refuted : exists (ls : list (language simple)) (st : stage) tree_of text u d dfa dfa' T' r lexemes stream p,
  Forall written_ok ls /\ Forall unqualified ls /\ chain_consistent ls /\ compile_chain (map parse_language ls) = Some st /\ messages st = [] /\ clear_kinds tree_of (chain_defs [] ls) /\
  (* "abc" is spelled by terminals for which the start symbol stands *)
  spells tree_of (chain_defs [] ls) text u /\ stands (chain_productions ls) (SNonterminal [] n_S) u [] /\
  (* there are no conflicts *)
  make_parser rule_number (first_by (LangModel.rules_of (g_rules (s_gram st))) 20) (LangModel.rules_of (g_rules (s_gram st))) one_object no_sources (fun _ _ => false) quiet
    (stage_rewriters quiet (fun _ => []) (weak_record [] (weak_items st) no_weak) no_closures (fun _ _ => NotSpecified) keep (x_ignored (s_lex st))) 100 [INonterm 1] = Some ([], d) /\ d_initial d = [0] /\
  (* but the parser rejects it *)
  stage_dfa no_names no_names no_category (fun m => entries m (x_exprs (s_lex st))) (fun s => smem Z.ltb s (s_used_ignored st)) 20 20 (stage_items st) = Some dfa /\
  weak_dfa (weak_symbol st) (lift_actions dfa) (x_terms (s_lex st)) = (dfa', [], T') /\ stage_reduce true true 20 dfa' = Some r /\
  read_all (compact_run Kchar r (n_states r)) (accept_at (accept_table any_less any_symbol r)) 0 20 (fun _ => None) (stream_new 0 text) [] = Some (lexemes, stream) /\
  parse (make_tables rule_number (rule_in (made_rules d)) item_number (insertion_sort entry_ltb) (insertion_sort weak_ltb) (d_actions d) []) LexerModel.lexeme lx_matched (fun _ l => l) unit (fun _ => tt) (fun _ _ _ => tt) 100 (start_parser LexerModel.lexeme unit 0 tt lexemes) = Done (false, p).
Proof.
  destruct letters_make as [[ms d]|] eqn:MK; [|vm_compute in MK; discriminate MK].
  destruct (read_all (compact_run Kchar letters_r (n_states letters_r)) (accept_at (accept_table any_less any_symbol letters_r)) 0 20 (fun _ => None) (stream_new 0 [97; 98; 99]) []) as [[lexemes stream]|] eqn:RD; [|vm_compute in RD; discriminate RD].
  assert (F : ms = [] /\ d_initial d = [0] /\ exists p, parse (make_tables rule_number (rule_in (made_rules d)) item_number (insertion_sort entry_ltb) (insertion_sort weak_ltb) (d_actions d) []) LexerModel.lexeme lx_matched (fun _ l => l) unit (fun _ => tt) (fun _ _ _ => tt) 100 (start_parser LexerModel.lexeme unit 0 tt lexemes) = Done (false, p)).
  { vm_compute in MK. injection MK as <- <-. vm_compute in RD. injection RD as <- <-. split; [reflexivity|]. split; [reflexivity|]. eexists. vm_compute. reflexivity. }
  destruct F as (-> & F1 & p & F2). exists letters, letters_st, letters_tree, [97; 98; 99], [q_a; q_b; q_c], d, letters_d, letters_w, (x_terms (s_lex letters_st)), letters_r, lexemes, stream, p.
  assert (W : Forall written_ok letters) by (apply languages_ok; vm_compute; reflexivity). split; [exact W|]. split; [apply example_unqualified; vm_compute; reflexivity|].
  destruct (consistent_computed letters W) as [C E]; [vm_compute; reflexivity|]. split; [exact C|]. split; [exact E|]. split; [reflexivity|]. split.
  { assert (T : forall e, In e (chain_defs [] letters) -> df_unit e = unit_keywords /\ df_weak e = true) by (intros e0 [<-|[<-|[<-|[]]]]; split; reflexivity). split.
    - intros e e' I _ _ U. rewrite (proj1 (T e I)) in U. discriminate U.
    - intros e e' I I' _. rewrite (proj2 (T e I)), (proj2 (T e' I')). reflexivity.
    - intros e I U. rewrite (proj1 (T e I)) in U. discriminate U.
    - intros w n e n' e' (I & _) (I' & _). apply live_in in I. apply live_in in I'. rewrite (proj2 (T e (proj1 I))), (proj2 (T e' (proj1 I'))). reflexivity. }
  split; [apply letters_word; [auto|]; apply letters_word; [auto|]; apply letters_word; [auto|]; constructor|]. split; [|split; [exact MK|split; [exact F1|split; [vm_compute; reflexivity|split; [vm_compute; reflexivity|split; [vm_compute; reflexivity|split; [exact RD|exact F2]]]]]]].
  eapply stands_nonterminal; [left; reflexivity|]. change [q_a; q_b; q_c] with ([q_a] ++ [q_b] ++ [q_c] ++ []). constructor; [|constructor; [|constructor; [apply stands_terminal|constructor]]].
  - eapply stands_nonterminal; [left; reflexivity|]. change [q_a] with ([q_a] ++ []). constructor; [apply stands_terminal|constructor].
  - eapply stands_nonterminal; [left; reflexivity|]. change [q_b] with ([] ++ [q_b] ++ []). constructor; [|constructor; [apply stands_terminal|constructor]]. eapply stands_nonterminal; [right; left; reflexivity|constructor].
Qed.
Print Assumptions C68_first_refuted.
