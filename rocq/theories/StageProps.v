(** The stage that makes a parser from a grammar: what it makes is right when it reports no conflict (C59), it reports the
    conflicts that are left (C60), and it warns about guards that clash (C61). *)
From Verif Require Import Base OrdMap GrammarModel GrammarProofs FirstModel FirstSpec FirstProofs FirstProps FollowSpec FollowProofs FollowProps LrItemModel LrItemProofs ClosureModel ClosureSpec ClosureProps MachineModel BuilderModel BuilderSpec BuilderProps ActionModel ActionSpec ActionProps TableModel TableProofs TableProps RunModel RunSpec RunProps RunTool RunFuelProofs RewriteModel RewriteSpec RewriteProps ConflictModel ConflictSpec ConflictProps CompleteProps TerminateProps StageModel StageSpec StageProofs StageMessageProofs.
Local Open Scope Z_scope.

Lemma make_parser_ext rid first_of rules busy sources can_clash o rw rw' fuel languages : (forall m, rw m = rw' m) ->
  make_parser rid first_of rules busy sources can_clash o rw fuel languages = make_parser rid first_of rules busy sources can_clash o rw' fuel languages.
Proof. intros E. unfold make_parser. destruct (complete_parser _ _ _ _ _ _ _ _ _) as [[[[m g] p] c]|]; [|reflexivity]. rewrite E. reflexivity. Qed.
(** A language without precedences, weak symbols and conflict attributes; the option for LR(1) resolution is
    not set.  Only the ignored symbols change the actions. *)
Definition simple_stage (o : options) (closures : machine -> Z -> list lr0) (lr1 : machine -> rewriter) (ignored : list Z) : machine -> list rewriter :=
  stage_rewriters o (fun _ => []) no_weak closures (fun _ _ => NotSpecified) lr1 ignored.

(** The generator ends, with any amount of work above a bound. *)
Theorem C59_generates_partial : forall rid first_of rules us rank languages busy width sources can_clash o closures lr1 ignored,
  injective rid -> workable rules us rank languages -> answered rules (fun i => In i us) first_of ->
  (forall n stack i, (width <= count_occ item_dec stack i)%nat -> busy n stack i = true) -> o_lr1 o = false ->
  exists fuel0, forall fuel, (fuel0 <= fuel)%nat -> make_parser rid first_of rules busy sources can_clash o (simple_stage o closures lr1 ignored) fuel languages <> None.
Proof.
  intros rid first_of rules us rank languages busy width sources can_clash o closures lr1 ignored RI WK AN BB L1. destruct (make_ends rid RI first_of rules us rank languages WK AN busy width BB sources can_clash closures ignored o) as [f H]. exists f. intros fuel F.
  rewrite (make_parser_ext _ _ _ _ _ _ _ _ (plain_rewriters closures ignored)) by (intros m; apply stage_plain, L1). apply H, F.
Qed.
Print Assumptions C59_generates_partial.

(** If no conflict is reported, no state both accepts and reduces, and the numbers fit into the tables, then the
    parser decides the language of each start symbol: it ends for each input, and accepts it if and only if
    there is a derivation of what is left when the ignored symbols are taken out. *)
Theorem C59_language_partial : forall rid rule_of ident sort sort_weak first_of rules us rank languages busy width sources can_clash o closures lr1 ignored fuel ms d,
  injective rid -> (forall i j : item, ident i = ident j -> i = j) -> sorts entry_ltb sort ->
  workable rules us rank languages -> answered rules (fun i => In i us) first_of ->
  (forall n stack i, (width <= count_occ item_dec stack i)%nat -> busy n stack i = true) -> o_lr1 o = false ->
  (forall s, In s ignored -> ~ In (ITerm s) us) ->
  make_parser rid first_of rules busy sources can_clash o (simple_stage o closures lr1 ignored) fuel languages = Some (ms, d) ->
  (forall g, In g ms -> reports_conflict g = false) -> clear_end (d_actions d) -> fits rid rule_of (d_actions d) ->
  forall n l, nth_error languages n = Some l -> exists q, nth_error (d_initial d) n = Some q /\
  forall (L : Type) (matched : L -> Z) (renamed : Z -> L -> L) (V : Type) (shift_value : option L -> V) (reduce_value : Z -> Z -> list V -> V) (v0 : V) (input : list L),
  exists steps b p,
    (forall more, (steps <= more)%nat -> parse (make_tables rid rule_of ident sort sort_weak (d_actions d) []) L matched renamed V shift_value reduce_value more (start_parser L V q v0 input) = Done (b, p)) /\
    (b = true <-> exists rs, rightmost rules rs [l] (map (fun x => ITerm (matched x)) (filter (fun x => negb (existsb (Z.eqb (matched x)) ignored)) input))).
Proof.
  intros rid rule_of ident sort sort_weak first_of rules us rank languages busy width sources can_clash o closures lr1 ignored fuel ms d RI IN SO WK AN BB L1 IG MK NR CE FI n l NL.
  rewrite (make_parser_ext _ _ _ _ _ _ _ _ (plain_rewriters closures ignored)) in MK by (intros m; apply stage_plain, L1).
  destruct (heads rid first_of rules (fun i => In i us) busy sources can_clash languages (work_buildable rid RI first_of rules us rank languages WK AN) o _ (plain_resolving closures ignored) fuel ms d MK) as [HD _].
  rewrite (filter_none _ ms NR) in HD. destruct (d_found d) as [|? ?] eqn:DF; [|discriminate HD].
  destruct (made_facts rid RI first_of rules us rank languages WK AN busy width BB sources can_clash closures ignored o fuel ms d MK) as (B & (plains & AP & EA) & CL & IS & _). rewrite DF in CL. rewrite EA in *.
  destruct (IS n l NL) as (q & Q1 & Q2). exists q. split; [exact Q1|]. intros L matched renamed V shift_value reduce_value v0 input.
  eapply (decides rid RI first_of rules us rank languages WK AN busy closures ignored); try eassumption; [|eapply nth_error_In, NL].
  eapply (plains_no_conflict rid RI first_of rules us rank languages WK AN busy width BB sources can_clash closures ignored); try eassumption. intros q0 x Q C. exact (proj2 (CL q0 x) (conj Q C)).
Qed.
Print Assumptions C59_language_partial.
(** No state both accepts and reduces if no start symbol is used in a rule. *)
Theorem C59_clear_end : forall rid first_of rules us rank languages busy width sources can_clash o closures lr1 ignored fuel ms d,
  injective rid -> workable rules us rank languages -> answered rules (fun i => In i us) first_of ->
  (forall n stack i, (width <= count_occ item_dec stack i)%nat -> busy n stack i = true) -> o_lr1 o = false ->
  (forall s, In s ignored -> ~ In (ITerm s) us) ->
  make_parser rid first_of rules busy sources can_clash o (simple_stage o closures lr1 ignored) fuel languages = Some (ms, d) ->
  starts_unused rules us languages -> clear_end (d_actions d).
Proof.
  intros rid first_of rules us rank languages busy width sources can_clash o closures lr1 ignored fuel ms d RI WK AN BB L1 IG MK SU.
  rewrite (make_parser_ext _ _ _ _ _ _ _ _ (plain_rewriters closures ignored)) in MK by (intros m; apply stage_plain, L1).
  destruct (made_facts rid RI first_of rules us rank languages WK AN busy width BB sources can_clash closures ignored o fuel ms d MK) as (B & (plains & AP & EA) & _). rewrite EA. intros acts a b I A C TA TB _.
  apply In_nth_error in I. destruct I as [n I]. apply rewrite_nth in I. destruct I as (acts0 & N & ->). destruct (plains_exact rid RI first_of rules us rank languages WK AN busy _ _ plains B AP n acts0 N) as [S E].
  assert (OLD : forall a, In a (ignored_rewrite (ignoring (map ITerm ignored)) (0 + Z.of_nat n) acts0) -> a_type a = Accept \/ a_type a = Reduce -> In a acts0).
  { intros a0 A0 T0. apply (proj2 (C32_actions _ _ _)) in A0. destruct A0 as [A0 _|b0 _ _ _ W|i _ _ ->]; [exact A0|rewrite W in T0; cbn in T0; destruct T0 as [T0|T0]; discriminate T0|cbn in T0; destruct T0 as [T0|T0]; discriminate T0]. }
  apply OLD in A; [|auto]. apply OLD in C; [|auto]. apply E in A. apply E in C. exact (unused_clear rid RI first_of rules us rank languages WK AN busy _ _ B SU _ a b A C TA TB).
Qed.
Print Assumptions C59_clear_end.
(** Without defined start symbols there is an error and no parser; each start symbol that is not defined is an
    error too.  The others are the languages of the parser, in their order. *)
Theorem C59_starts : forall rid first_of rules busy sources can_clash is_defined o rewriters fuel starts ms made,
  compile rid first_of rules busy sources can_clash is_defined o rewriters fuel starts = Some (ms, made) ->
  (forall n, In n starts -> is_defined n = false -> In (mkMessage SevError UNDEFINED_NONTERMINAL 0 (INonterm n) None) ms) /\
  match made with
  | None => (forall n, In n starts -> is_defined n = false) /\ In (mkMessage SevError NO_START_SYMBOLS 0 IEmpty None) ms
  | Some d => exists ms', make_parser rid first_of rules busy sources can_clash o rewriters fuel (map INonterm (filter is_defined starts)) = Some (ms', d) /\ forall g, In g ms' -> In g ms
  end.
Proof.
  intros rid first_of rules busy sources can_clash is_defined o rewriters fuel starts ms made. unfold compile, start_items.
  assert (SM : forall n, In n starts -> is_defined n = false -> In (mkMessage SevError UNDEFINED_NONTERMINAL 0 (INonterm n) None) (start_messages is_defined starts)).
  { intros n I D. unfold start_messages. apply (in_map (fun n => mkMessage SevError UNDEFINED_NONTERMINAL 0 (INonterm n) None)). apply filter_In. rewrite D. auto. }
  destruct (map INonterm (filter is_defined starts)) as [|l ls] eqn:E.
  - intros H. injection H as <- <-. split; [intros n I D; apply in_app_iff; left; apply SM; assumption|]. split; [|apply in_app_iff; right; left; reflexivity].
    intros n I. destruct (is_defined n) eqn:D; [|reflexivity]. assert (X : In (INonterm n) (map INonterm (filter is_defined starts))) by (apply in_map, filter_In; auto). rewrite E in X. destruct X.
  - rewrite <- E. destruct (make_parser _ _ _ _ _ _ _ _ _ _) as [[ms' d]|] eqn:MK; [|discriminate]. intros H. injection H as <- <-. split; [intros n I D; apply in_app_iff; left; apply SM; assumption|]. exists ms'. split; [reflexivity|]. intros g I. apply in_app_iff. right. exact I.
Qed.
Print Assumptions C59_starts.

(** The expression grammar of C25 meets the conditions.  The symbol t9 is ignored. *)
Definition quiet : options := mkOptions false true false false.
Definition made_rules (d : made_parser) : list rule := flat_map (map a_rule) (d_actions d).
Definition no_closures (m : machine) (q : Z) : list lr0 := [].
Definition keep (m : machine) : rewriter := fun q acts => acts.
Definition ex_make (ignored : list Z) : option (list message * made_parser) :=
  make_parser rule_number (first_by ex_rules 20) ex_rules one_object no_sources (fun _ _ => false) quiet (simple_stage quiet no_closures keep ignored) 300 [INonterm 0].
Notation made_ast d w := (parse (make_tables rule_number (rule_in (made_rules d)) item_number (insertion_sort entry_ltb) (insertion_sort weak_ltb) (d_actions d) []) lex fst lex_renamed (ast lex) ast_shift ast_reduce 200 (start_parser lex (ast lex) 0 (Leaf None) (lexemes w))).
Lemma one_object_bound : forall n stack i, (1 <= count_occ item_dec stack i)%nat -> one_object n stack i = true.
Proof. intros n stack i H. unfold one_object. apply existsb_exists. exists i. split; [apply (count_occ_In item_dec); lia|apply item_eqb_spec; reflexivity]. Qed.
Lemma clear_checked actss : accept_check actss = true -> clear_end actss.
Proof.
  unfold accept_check. intros AC acts a b I A C TA TB E. rewrite forallb_forall in AC. specialize (AC _ I). rewrite forallb_forall in AC. specialize (AC _ A). rewrite forallb_forall in AC. specialize (AC _ C).
  rewrite TA, TB in AC. apply negb_true_iff in AC. apply item_eqb_spec in E. congruence.
Qed.
Lemma ex_workable : workable ex_rules ex_items ex_rank [INonterm 0].
Proof.
  destruct C25_nontrivial as (CL & PE & NR & LR & EL & _). split; try assumption.
  - intros i U. unfold ex_items, In in U. repeat (destruct U as [<-|U]; [exact Logic.I|]). destruct U.
  - intros l [<-|[]]. left. reflexivity.
Qed.
Lemma ex_answered : answered ex_rules (fun i => In i ex_items) (first_by ex_rules 20).
Proof.
  split.
  - intros i. unfold first_by. destruct (first ex_rules 20 i []) as [[c' s]|] eqn:E; [|constructor]. eapply (first_set_ok _ 20 i [] c' s); [split; [constructor|intros j t []]|exact E].
  - intros i U. exists [], 20%nat. unfold ex_items, In in U. repeat (destruct U as [<-|U]; [eexists; split; [constructor|vm_compute; reflexivity]|]). destruct U.
Qed.
Example C59_nontrivial : exists d p p',
  workable ex_rules ex_items ex_rank [INonterm 0] /\ answered ex_rules (fun i => In i ex_items) (first_by ex_rules 20) /\
  (forall n stack i, (1 <= count_occ item_dec stack i)%nat -> one_object n stack i = true) /\ (forall s, In s [9] -> ~ In (ITerm s) ex_items) /\
  ex_make [9] = Some ([], d) /\ clear_end (d_actions d) /\ fits rule_number (rule_in (made_rules d)) (d_actions d) /\ d_initial d = [0] /\
  made_ast d [9; 5; 3; 3; 5; 3; 4; 4; 9; 6; 5; 3; 9; 4; 2; 5; 3; 4; 4; 1; 5; 3; 4] = Done (true, p) /\
  made_ast d [5; 3; 6; 4] = Done (false, p').
Proof.
  destruct (ex_make [9]) as [[ms d]|] eqn:E; [|vm_compute in E; discriminate E].
  assert (F : fits_check (made_rules d) (d_actions d) = true /\ accept_check (d_actions d) = true /\ ms = [] /\ d_initial d = [0] /\ exists p p', made_ast d [9; 5; 3; 3; 5; 3; 4; 4; 9; 6; 5; 3; 9; 4; 2; 5; 3; 4; 4; 1; 5; 3; 4] = Done (true, p) /\ made_ast d [5; 3; 6; 4] = Done (false, p')).
  { vm_compute in E. injection E as <- <-. split; [vm_compute; reflexivity|]. split; [vm_compute; reflexivity|]. split; [reflexivity|]. split; [reflexivity|]. eexists. eexists. split; vm_compute; reflexivity. }
  destruct F as (F1 & F2 & -> & F3 & p & p' & F4 & F5). exists d, p, p'. split; [apply ex_workable|]. split; [apply ex_answered|]. split; [apply one_object_bound|]. split.
  { intros s [<-|[]] U. unfold ex_items, In in U. repeat (destruct U as [U|U]; [discriminate U|]). destruct U. }
  split; [reflexivity|]. split; [apply clear_checked, F2|]. split; [apply fits_checked, F1|]. auto.
Qed.

(** The full statement fails.  For the grammar 0 -> 1 2 t6, 1 -> t4, 2 -> 2 t5 | (nothing) nothing at all is
    reported, and the parser that is made rejects t4 t5 t6, which has a derivation (2 is left recursive and can
    be empty). *)
Definition lost_make : option (list message * made_parser) :=
  make_parser rule_number (first_by (rules_of nts_lost) 20) (rules_of nts_lost) one_object no_sources (fun _ _ => false) quiet (simple_stage quiet no_closures keep []) 100 [INonterm 0].
Theorem C59_first_refuted : exists d p, lost_make = Some ([], d) /\ d_initial d = [0] /\ clear_end (d_actions d) /\ fits rule_number (rule_in (made_rules d)) (d_actions d) /\
  (exists rs, rightmost (rules_of nts_lost) rs [INonterm 0] (map (fun x : lex => ITerm (fst x)) (lexemes [4; 5; 6]))) /\ made_ast d [4; 5; 6] = Done (false, p).
Proof.
  destruct lost_make as [[ms d]|] eqn:E; [|vm_compute in E; discriminate E].
  assert (F : fits_check (made_rules d) (d_actions d) = true /\ accept_check (d_actions d) = true /\ ms = [] /\ d_initial d = [0] /\ exists p, made_ast d [4; 5; 6] = Done (false, p)).
  { vm_compute in E. injection E as <- <-. split; [vm_compute; reflexivity|]. split; [vm_compute; reflexivity|]. split; [reflexivity|]. split; [reflexivity|]. eexists. vm_compute; reflexivity. }
  destruct F as (F1 & F2 & -> & F3 & p & F4). exists d, p. split; [reflexivity|]. split; [exact F3|]. split; [apply clear_checked, F2|]. split; [apply fits_checked, F1|]. split; [|exact F4].
  destruct C58_first_refuted as (m & g & a & q & _ & _ & _ & D & _). exact D.
Qed.
Print Assumptions C59_first_refuted.
(** A state that both accepts and reduces is not reported either.  The grammar 0 -> 0 2 | t4, 2 -> (nothing)
    meets all the conditions except [clear_end]: there is no message, and the parser that is made never ends on
    t4. *)
Definition nts_end : grammar_of := [(0, [[INonterm 0; INonterm 2]; [ITerm 4]]); (2, [[]])].
Definition items_end : list item := [INonterm 0; INonterm 2; ITerm 4].
Definition end_rank (i : item) : nat := match i with INonterm _ => 1 | _ => 0 end.
Definition end_make : option (list message * made_parser) :=
  make_parser rule_number (first_by (rules_of nts_end) 20) (rules_of nts_end) one_object no_sources (fun _ _ => false) quiet (simple_stage quiet no_closures keep []) 100 [INonterm 0].
Lemma end_bodies n r : In r (rules_of nts_end n) -> (n = 0 /\ (r = [INonterm 0; INonterm 2] \/ r = [ITerm 4])) \/ (n = 2 /\ r = []).
Proof. unfold rules_of, nts_end. cbn [filter fst]. destruct (Z.eqb_spec 0 n) as [<-|]; [cbn; intuition auto|]. destruct (Z.eqb_spec 2 n) as [<-|]; cbn; intuition auto. Qed.
Lemma end_nullable i : nullable (rules_of nts_end) i -> match i with INonterm 0 | ITerm _ => False | _ => True end.
Proof.
  set (P := fun i : item => match i with INonterm 0 | ITerm _ => False | _ => True end). change (nullable (rules_of nts_end) i -> P i).
  apply (nullable_ind2 (rules_of nts_end) P (Forall P)); try constructor; try assumption. clear i. intros i r B _ F.
  destruct i as [| | |t|n|p l|k rs]; try exact Logic.I; [destruct B|]. cbn [has_body] in B. apply end_bodies in B. destruct B as [(-> & [-> | ->])|(-> & _)]; [inversion F; assumption|inversion F; assumption|exact Logic.I].
Qed.
Lemma end_workable : workable (rules_of nts_end) items_end end_rank [INonterm 0].
Proof.
  split.
  - intros i U. unfold items_end, In in U. repeat (destruct U as [<-|U]; [exact Logic.I|]). destruct U.
  - intros i r j U B J. unfold items_end, In in U. repeat (destruct U as [U|U]; [subst i; cbn [has_body] in B; try (destruct B; fail)|]); [..|destruct U]; apply end_bodies in B; destruct B as [(E & [-> | ->])|(E & ->)]; try discriminate E; cbn in J; unfold items_end; cbn [In]; intuition auto.
  - intros k rs r U. unfold items_end, In in U. repeat (destruct U as [U|U]; [discriminate U|]). destruct U.
  - intros rs U. unfold items_end, In in U. repeat (destruct U as [U|U]; [discriminate U|]). destruct U.
  - intros i pre y post U B N. unfold items_end, In in U. repeat (destruct U as [U|U]; [subst i; cbn [has_body] in B; try (destruct B; fail)|]); [..|destruct U]; apply end_bodies in B; destruct B as [(E & [B | B])|(E & B)]; try discriminate E; destruct pre as [|a pre]; try discriminate B; try (injection B as -> ->).
    + right. split; [reflexivity|]. intros NY. exact (end_nullable _ NY).
    + injection B as -> _. exfalso. inversion N as [|? ? N1 N2]; subst. exact (end_nullable _ N1).
    + left. cbn. lia.
    + destruct pre; discriminate B.
  - intros n a r b i k c U E NR NI. assert (Bi : In (i :: k) (rules_of nts_end n)) by (rewrite E; apply in_app_iff; right; right; apply in_elt). apply end_bodies in Bi. apply end_nullable in NI. destruct Bi as [(_ & [X | X])|(_ & X)]; try discriminate X; injection X as -> ->; destruct NI.
  - intros l [<-|[]]. left. reflexivity.
Qed.
Theorem C59_end_refuted : exists d, workable (rules_of nts_end) items_end end_rank [INonterm 0] /\ answered (rules_of nts_end) (fun i => In i items_end) (first_by (rules_of nts_end) 20) /\
  end_make = Some ([], d) /\ fits rule_number (rule_in (made_rules d)) (d_actions d) /\ d_initial d = [0] /\
  forall fuel, parse (make_tables rule_number (rule_in (made_rules d)) item_number (insertion_sort entry_ltb) (insertion_sort weak_ltb) (d_actions d) []) lex fst lex_renamed (ast lex) ast_shift ast_reduce fuel (start_parser lex (ast lex) 0 (Leaf None) (lexemes [4])) = OutOfFuel.
Proof.
  destruct end_make as [[ms d]|] eqn:E; [|vm_compute in E; discriminate E].
  assert (F : fits_check (made_rules d) (d_actions d) = true /\ ms = [] /\ d_initial d = [0]) by (vm_compute in E; injection E as <- <-; split; [vm_compute; reflexivity|split; reflexivity]).
  destruct F as (F1 & -> & F3). exists d. split; [apply end_workable|]. split.
  { split; [intros i; apply tool_first|]. intros i U. exists [], 20%nat. unfold items_end, In in U. repeat (destruct U as [<-|U]; [eexists; split; [constructor|vm_compute; reflexivity]|]). destruct U. }
  split; [reflexivity|]. split; [apply fits_checked, F1|]. split; [exact F3|]. clear F1 F3. vm_compute in E. injection E as <-. set (t := make_tables _ _ _ _ _ _ _). unfold start_parser.
  assert (ONE : forall p p', process t lex fst lex_renamed (ast lex) ast_shift ast_reduce 0 p = Done (More, p') -> forall fuel, parse t lex fst lex_renamed (ast lex) ast_shift ast_reduce (S fuel) p = parse t lex fst lex_renamed (ast lex) ast_shift ast_reduce fuel p').
  { intros p p' H fuel. cbn [parse]. rewrite (le_done _ _ _ (process_more t lex fst lex_renamed (ast lex) ast_shift ast_reduce 0 fuel p (Nat.le_0_l fuel)) H). reflexivity. }
  assert (LOOP : forall fuel v c seen, parse t lex fst lex_renamed (ast lex) ast_shift ast_reduce fuel (mkParser (mkRun [(2, v); (0, Leaf None)] c) [] seen) = OutOfFuel).
  { intros fuel. induction fuel as [fuel IH] using lt_wf_ind. intros v c seen. destruct fuel as [|[|fuel]]; [reflexivity| |]; (erewrite ONE; [|vm_compute; reflexivity]); [reflexivity|]. erewrite ONE; [apply IH; lia|]. vm_compute. reflexivity. }
  intros [|[|fuel]]; [reflexivity| |]; (erewrite ONE; [|vm_compute; reflexivity]); [reflexivity|]. erewrite ONE; [apply LOOP|]. vm_compute. reflexivity.
Qed.
Print Assumptions C59_end_refuted.

(** C60.  The rewriters of a language without weak symbols; those for precedences and the one for LR(1) resolution
    may only take actions away (which they do: precedence_resolving, lr1_resolving). *)
Definition strong_stage (o : options) (language : machine -> list rewriter) (closures : machine -> Z -> list lr0) (attribute : rule -> nat -> conflict_action) (lr1 : machine -> rewriter) (ignored : list Z) : machine -> list rewriter :=
  stage_rewriters o language no_weak closures attribute lr1 ignored.
Lemma strong_resolving o language closures attribute lr1 ignored : (forall m w, In w (language m) -> resolving w) -> (forall m, resolving (lr1 m)) -> forall m w, In w (strong_stage o language closures attribute lr1 ignored m) -> resolving w.
Proof.
  intros LA L1 m w I. unfold strong_stage, stage_rewriters in I. apply in_app_iff in I. destruct I as [I|I]; [exact (LA m w I)|]. apply in_app_iff in I. destruct I as [[<-|[<-|[]]]|I]; [|apply attribute_resolving|].
  - intros q acts S. rewrite weak_none. split; [exact S|auto].
  - apply in_app_iff in I. destruct I as [I|[<-|[]]]; [destruct (o_lr1 o); [destruct I as [<-|[]]; apply L1|destruct I]|].
    pose proof (ignored_resolving (map ITerm ignored)) as R. unfold ignoring in R. replace (fold_left (fun s i => ignored_add (ITerm i) s) ignored []) with (fold_left (fun s i => ignored_add i s) (map ITerm ignored) []); [exact R|].
    clear. generalize (@nil item). induction ignored as [|i l IH]; intros s; [reflexivity|]. cbn [map fold_left]. apply IH.
Qed.
(** There is exactly one report for a state and a symbol on which two decisive actions are left in the state,
    and none for others. *)
Theorem C60_reported_partial : forall rid first_of rules u busy sources can_clash o language closures attribute lr1 ignored fuel languages ms d,
  buildable rid first_of rules u languages -> (forall m w, In w (language m) -> resolving w) -> (forall m, resolving (lr1 m)) ->
  make_parser rid first_of rules busy sources can_clash o (strong_stage o language closures attribute lr1 ignored) fuel languages = Some (ms, d) ->
  (forall q x, (exists g, In g ms /\ reports_conflict g = true /\ g_state g = q /\ g_token g = x) <->
               exists n acts, q = Z.of_nat n /\ nth_error (d_actions d) n = Some acts /\ clash (fun a => In a acts) x) /\
  NoDup (map (fun g => (g_state g, g_token g)) (filter reports_conflict ms)).
Proof.
  intros rid first_of rules u busy sources can_clash o language closures attribute lr1 ignored fuel languages ms d BU LA L1 MK. pose proof (strong_resolving o language closures attribute lr1 ignored LA L1) as RW.
  destruct (heads rid first_of rules u busy sources can_clash languages BU o _ RW fuel ms d MK) as [HD _]. destruct (found_facts rid first_of rules u busy sources can_clash languages BU o _ RW fuel ms d MK) as (_ & _ & CL & ND & _).
  pose proof (left_actions rid first_of rules u busy sources can_clash languages BU o _ RW fuel ms d MK) as LE. cbv zeta in *. split; [|rewrite HD; exact ND]. intros q x. destruct (LE q) as [IS AC].
  assert (H1 : (exists g, In g ms /\ reports_conflict g = true /\ g_state g = q /\ g_token g = x) <-> In (q, x) (map (fun f => (f_state f, f_token f)) (d_found d))).
  { rewrite <- HD, in_map_iff. split; [intros (g & I & R & <- & <-); exists g; split; [reflexivity|apply filter_In; auto]|intros (g & E & I); apply filter_In in I; destruct I as [I R]; injection E as <- <-; exists g; auto]. }
  rewrite H1, CL, IS. clear H1. split.
  - intros [(n & acts & -> & N) (a & b & A & C & Y)]. exists n, acts. split; [reflexivity|]. split; [exact N|]. destruct (AC n acts eq_refl N) as [_ E]. exists a, b. split; [apply E, A|]. split; [apply E, C|exact Y].
  - intros (n & acts & -> & N & a & b & A & C & Y). split; [exists n, acts; auto|]. destruct (AC n acts eq_refl N) as [_ E]. exists a, b. split; [apply E, A|]. split; [apply E, C|exact Y].
Qed.
Print Assumptions C60_reported_partial.
(** A report says that there is a shift when an item of the state can shift the symbol, and that reductions
    clash otherwise; it is an error or a warning as the options say. *)
Theorem C60_severity_partial : forall rid first_of rules u busy sources can_clash o language closures attribute lr1 ignored fuel languages ms d,
  buildable rid first_of rules u languages -> (forall m w, In w (language m) -> resolving w) -> (forall m, resolving (lr1 m)) ->
  make_parser rid first_of rules busy sources can_clash o (strong_stage o language closures attribute lr1 ignored) fuel languages = Some (ms, d) ->
  forall g, In g ms -> reports_conflict g = true ->
  (g_code g = CONFLICT_SHIFT_REDUCE /\ (exists k, shift_reason rules first_of (kernel (d_machine d)) (g_state g) (g_token g) k) /\ g_severity g = if o_no_conflicts o then SevError else SevWarning) \/
  (g_code g = CONFLICT_REDUCE_REDUCE /\ (forall k, ~ shift_reason rules first_of (kernel (d_machine d)) (g_state g) (g_token g) k) /\ g_severity g = if negb (o_no_conflicts o) && o_allow_reduce o then SevWarning else SevError).
Proof.
  intros rid first_of rules u busy sources can_clash o language closures attribute lr1 ignored fuel languages ms d BU LA L1 MK g I R. pose proof (strong_resolving o language closures attribute lr1 ignored LA L1) as RW.
  destruct (heads rid first_of rules u busy sources can_clash languages BU o _ RW fuel ms d MK) as [_ HD]. destruct (found_facts rid first_of rules u busy sources can_clash languages BU o _ RW fuel ms d MK) as (_ & RC & _).
  destruct (HD g I R) as (f & IF & -> & -> & X). destruct (RC f IF) as [[SH _] _]. destruct (f_shift f) as [|k l].
  - right. destruct X as [-> ->]. split; [reflexivity|]. split; [intros k K; apply SH in K; destruct K|]. unfold reduce_reduce_severity. destruct (o_no_conflicts o), (o_allow_reduce o); reflexivity.
  - left. destruct X as [-> ->]. split; [reflexivity|]. split; [exists k; apply SH; left; reflexivity|]. unfold shift_reduce_severity. destruct (o_no_conflicts o); reflexivity.
Qed.
Print Assumptions C60_severity_partial.
(** So with no-conflicts a parser with a clash is never made without an error, and neither is one where two
    reductions clash on a symbol that cannot be shifted, unless reduce conflicts are allowed. *)
Theorem C60_errors_partial : forall rid first_of rules u busy sources can_clash o language closures attribute lr1 ignored fuel languages ms d,
  buildable rid first_of rules u languages -> (forall m w, In w (language m) -> resolving w) -> (forall m, resolving (lr1 m)) ->
  make_parser rid first_of rules busy sources can_clash o (strong_stage o language closures attribute lr1 ignored) fuel languages = Some (ms, d) ->
  (forall g, In g ms -> g_severity g <> SevError) ->
  forall n acts x, nth_error (d_actions d) n = Some acts -> clash (fun a => In a acts) x ->
  o_no_conflicts o = false /\ ((exists k, shift_reason rules first_of (kernel (d_machine d)) (Z.of_nat n) x k) \/ o_allow_reduce o = true).
Proof.
  intros rid first_of rules u busy sources can_clash o language closures attribute lr1 ignored fuel languages ms d BU LA L1 MK NE n acts x N C.
  destruct (C60_reported_partial _ _ _ _ _ _ _ _ _ _ _ _ _ _ _ _ _ BU LA L1 MK) as [RP _]. destruct (proj2 (RP (Z.of_nat n) x)) as (g & I & R & GS & GT); [exists n, acts; auto|]. specialize (NE g I). rewrite <- GS, <- GT.
  destruct (C60_severity_partial _ _ _ _ _ _ _ _ _ _ _ _ _ _ _ _ _ BU LA L1 MK g I R) as [(_ & K & S)|(_ & _ & S)]; rewrite S in NE.
  - destruct (o_no_conflicts o); [congruence|]. auto.
  - destruct (o_no_conflicts o), (o_allow_reduce o); cbn in NE; try congruence. auto.
Qed.
Print Assumptions C60_errors_partial.
Definition default : options := mkOptions false false false false.
Definition simply_make (o : options) (nts : grammar_of) : option (list message * made_parser) :=
  make_parser rule_number (first_by (rules_of nts) 20) (rules_of nts) one_object no_sources (fun _ _ => false) o (strong_stage o (fun _ => []) no_closures (fun _ _ => NotSpecified) keep []) 100 [INonterm 0].
Lemma keep_resolving m : resolving (keep m).
Proof. intros q acts S. unfold keep. auto. Qed.
(** 0 -> 1 t5 | 2 t5, 1 -> t4, 2 -> t4: two reductions on t5 *)
Definition nts_two : grammar_of := [(0, [[INonterm 1; ITerm 5]; [INonterm 2; ITerm 5]]); (1, [[ITerm 4]]); (2, [[ITerm 4]])].
Definition items_two : list item := [INonterm 0; INonterm 1; INonterm 2; ITerm 4; ITerm 5].
Example C60_nontrivial : buildable rule_number (first_by (rules_of nts_sum) 20) (rules_of nts_sum) (fun i => In i items_sum) [INonterm 0] /\ (forall m, resolving (keep m)) /\
  (exists d acts, simply_make default nts_sum = Some ([mkMessage SevWarning CONFLICT_SHIFT_REDUCE 4 (ITerm 5) (Some (mkLr0 (mkRule (INonterm 0) [INonterm 0; ITerm 5; INonterm 0]) 1)); mkMessage SevDetail DETAIL_REDUCE 4 (ITerm 5) (Some (mkLr0 (mkRule (INonterm 0) [INonterm 0; ITerm 5; INonterm 0]) 3))], d) /\
     nth_error (d_actions d) 4 = Some acts /\ clash (fun a => In a acts) (ITerm 5)) /\
  buildable rule_number (first_by (rules_of nts_two) 20) (rules_of nts_two) (fun i => In i items_two) [INonterm 0] /\
  exists d q k k', simply_make default nts_two = Some ([mkMessage SevError CONFLICT_REDUCE_REDUCE q (ITerm 5) (Some k); mkMessage SevDetail DETAIL_REDUCE q (ITerm 5) (Some k')], d).
Proof.
  split; [|split; [apply keep_resolving|split; [|split]]].
  - destruct (tool nts_sum items_sum [INonterm 0]) as [[[m g] a]|] eqn:E; [|vm_compute in E; discriminate E]. apply (tool_ok _ _ _ _ _ _ E).
  - destruct (simply_make default nts_sum) as [[ms d]|] eqn:E; [|vm_compute in E; discriminate E]. vm_compute in E. injection E as <- <-. eexists. eexists. split; [reflexivity|]. split; [reflexivity|].
    exists (mkAction Shift (ITerm 5) 3 no_rule), (mkAction Reduce (ITerm 5) (-1) (mkRule (INonterm 0) [INonterm 0; ITerm 5; INonterm 0])). split; [cbn; tauto|]. split; [cbn; tauto|]. split; [discriminate|]. split; [reflexivity|]. split; [reflexivity|]. unfold decisive. cbn. tauto.
  - destruct (tool nts_two items_two [INonterm 0]) as [[[m g] a]|] eqn:E; [|vm_compute in E; discriminate E]. apply (tool_ok _ _ _ _ _ _ E).
  - destruct (simply_make default nts_two) as [[ms d]|] eqn:E; [|vm_compute in E; discriminate E]. vm_compute in E. injection E as <- <-. do 4 eexists. reflexivity.
Qed.
(** The full statement, that a parser where two reductions clash is only made with an error, fails: when the
    symbol can be shifted too, there is only a warning about the shift.
    0 -> 1 t5 | 2 t5 | t4 t5 t6, 1 -> t4, 2 -> t4 *)
Definition nts_hidden : grammar_of := [(0, [[INonterm 1; ITerm 5]; [INonterm 2; ITerm 5]; [ITerm 4; ITerm 5; ITerm 6]]); (1, [[ITerm 4]]); (2, [[ITerm 4]])].
Definition items_hidden : list item := [INonterm 0; INonterm 1; INonterm 2; ITerm 4; ITerm 5; ITerm 6].
Theorem C60_reduce_refuted : exists ms d n acts, buildable rule_number (first_by (rules_of nts_hidden) 20) (rules_of nts_hidden) (fun i => In i items_hidden) [INonterm 0] /\
  simply_make default nts_hidden = Some (ms, d) /\ (forall g, In g ms -> g_severity g <> SevError /\ g_code g <> CONFLICT_REDUCE_REDUCE) /\
  nth_error (d_actions d) n = Some acts /\ reduce_reduce (fun a => In a acts) (ITerm 5).
Proof.
  assert (BU : buildable rule_number (first_by (rules_of nts_hidden) 20) (rules_of nts_hidden) (fun i => In i items_hidden) [INonterm 0]) by (destruct (tool nts_hidden items_hidden [INonterm 0]) as [[[m g] a]|] eqn:E; [|vm_compute in E; discriminate E]; apply (tool_ok _ _ _ _ _ _ E)).
  destruct (simply_make default nts_hidden) as [[ms d]|] eqn:E; [|vm_compute in E; discriminate E]. exists ms, d, 1%nat. vm_compute in E. injection E as <- <-. eexists. split; [exact BU|]. split; [reflexivity|]. split; [|split; [reflexivity|]].
  - intros g I. cbn [In] in I. repeat (destruct I as [<-|I]; [split; discriminate|]). destruct I.
  - exists (mkAction Reduce (ITerm 5) (-1) (mkRule (INonterm 1) [ITerm 4])), (mkAction Reduce (ITerm 5) (-1) (mkRule (INonterm 2) [ITerm 4])). split; [cbn; tauto|]. split; [cbn; tauto|]. split; [discriminate|]. auto.
Qed.
Print Assumptions C60_reduce_refuted.

(** C61.  When two guards are checked on a symbol in a state, and one of them is next in a kernel item of the
    state where it may not clash, then there is a warning about the state, and the item is shown with it. *)
Theorem C61_warned_partial : forall rid first_of rules busy sources can_clash o rewriters fuel languages ms d,
  make_parser rid first_of rules busy sources can_clash o rewriters fuel languages = Some (ms, d) ->
  forall n acts s x k, nth_error (d_actions d) n = Some acts -> state_with_id (Z.of_nat n) (d_machine d) = Some s -> clashing can_clash acts (st_list s) x k ->
  exists x' k', In (mkMessage SevWarning CLASHING_GUARDS (Z.of_nat n) x' (Some k')) ms /\ In (mkMessage SevDetail CLASHING_GUARDS_DETAIL (Z.of_nat n) x' (Some k)) ms.
Proof.
  intros rid first_of rules busy sources can_clash o rewriters fuel languages ms d MK n acts s x k N S C.
  assert (EM : exists pre, ms = pre ++ all_guard_messages rid can_clash (d_machine d) 0 (d_actions d)).
  { unfold make_parser in MK. destruct (complete_parser _ _ _ _ _ _ _ _ _) as [[[[m g] p] c]|]; [|discriminate MK]. destruct (find_conflicts _ _ _ _ _ _ _ _ _ _) as [[found c1]|]; [|discriminate MK]. destruct (all_actions _ _ _ _ _ _ _ _ _ _) as [[actss c2]|]; [|discriminate MK]. injection MK as <- <-. eexists. reflexivity. }
  destruct EM as [pre ->]. destruct (state_warnings rid can_clash (Z.of_nat n) (st_list s) acts x k C) as (x' & k' & W & D). exists x', k'.
  split; apply in_app_iff; right; apply all_warnings; exists n, acts; (split; [exact N|]); cbn [Z.add]; rewrite S; [exact W|exact D].
Qed.
Print Assumptions C61_warned_partial.
(** Each warning is about such an item. *)
Theorem C61_sound_partial : forall rid first_of rules busy sources can_clash o rewriters fuel languages ms d,
  make_parser rid first_of rules busy sources can_clash o rewriters fuel languages = Some (ms, d) ->
  forall g, In g ms -> g_code g = CLASHING_GUARDS ->
  exists n acts x k, nth_error (d_actions d) n = Some acts /\ g = mkMessage SevWarning CLASHING_GUARDS (Z.of_nat n) x (Some k) /\
  exists s, state_with_id (Z.of_nat n) (d_machine d) = Some s /\ clashing can_clash acts (st_list s) x k.
Proof.
  intros rid first_of rules busy sources can_clash o rewriters fuel languages ms d MK g I G.
  assert (EM : ms = flat_map (conflict_messages o) (d_found d) ++ all_guard_messages rid can_clash (d_machine d) 0 (d_actions d)).
  { unfold make_parser in MK. destruct (complete_parser _ _ _ _ _ _ _ _ _) as [[[[m g'] p] c]|]; [|discriminate MK]. destruct (find_conflicts _ _ _ _ _ _ _ _ _ _) as [[found c1]|]; [|discriminate MK]. destruct (all_actions _ _ _ _ _ _ _ _ _ _) as [[actss c2]|]; [|discriminate MK]. injection MK as <- <-. reflexivity. }
  subst ms. apply in_app_iff in I. destruct I as [I|I].
  - exfalso. apply in_flat_map in I. destruct I as (f & _ & I). unfold conflict_messages in I. rewrite !in_app_iff in I.
    assert (SM : forall b l, In g (shift_messages o f b l) -> False) by (intros b l; revert b; induction l as [|k l IH]; intros b; cbn [shift_messages]; [intros []|]; rewrite in_app_iff; intros [J|J]; [destruct b; [|destruct (o_details o)]; (destruct J as [<-|[]] || destruct J); discriminate G|exact (IH _ J)]).
    assert (RM : forall b l, In g (reduce_messages o f b l) -> False) by (intros b l; revert b; induction l as [|[k ids] l IH]; intros b; cbn [reduce_messages]; [intros []|]; intros [J|J]; [destruct (b && _)%bool; subst g; discriminate G|exact (IH _ J)]).
    destruct I as [I|[I|I]]; [exact (SM _ _ I)|exact (RM _ _ I)|]. destruct (f_reduce f), (f_shift f); try destruct I as [<-|[]]; try discriminate G; destruct I.
  - apply all_warnings in I. destruct I as (n & acts & N & I). cbn [Z.add] in I. destruct (state_warnings_sound rid can_clash _ _ _ _ I G) as (x & k & -> & C). exists n, acts, x, k. split; [exact N|]. split; [reflexivity|].
    destruct (state_with_id (Z.of_nat n) (d_machine d)) as [s|]; [exists s; auto|]. destruct C as [[] _].
Qed.
Print Assumptions C61_sound_partial.
(** 0 -> t6 [=> t4] 1 | t6 [=> t4 t5] 2, 1 -> t4, 2 -> t4 t5: after t6, both guards are checked on t4 *)
Definition nts_clash : grammar_of := [(0, [[ITerm 6; IGuard 0 [ITerm 4]; INonterm 1]; [ITerm 6; IGuard 1 [ITerm 4; ITerm 5]; INonterm 2]]); (1, [[ITerm 4]]); (2, [[ITerm 4; ITerm 5]])].
Example C61_nontrivial : exists ms d acts s k k', simply_make default nts_clash = Some (ms, d) /\ nth_error (d_actions d) 1 = Some acts /\ state_with_id 1 (d_machine d) = Some s /\
  clashing (fun _ _ => false) acts (st_list s) (ITerm 4) k /\ In (mkMessage SevWarning CLASHING_GUARDS 1 (ITerm 4) (Some k')) ms.
Proof.
  destruct (simply_make default nts_clash) as [[ms d]|] eqn:E; [|vm_compute in E; discriminate E]. exists ms, d. vm_compute in E. injection E as <- <-. eexists. eexists. exists (mkLr0 (mkRule (INonterm 0) [ITerm 6; IGuard 0 [ITerm 4]; INonterm 1]) 1). eexists. split; [reflexivity|]. split; [reflexivity|]. split; [reflexivity|]. split; [|left; reflexivity].
  split; [cbn; tauto|]. split; [reflexivity|]. eexists. eexists. split; [reflexivity|]. split.
  - exists (mkAction Guard (ITerm 4) 3 (mkRule (IGuard 0 [ITerm 4]) [ITerm 4])), 4. split; [cbn; tauto|]. auto.
  - exists (IGuard 1 [ITerm 4; ITerm 5]). split; [discriminate|]. exists (mkAction Guard (ITerm 4) 4 (mkRule (IGuard 1 [ITerm 4; ITerm 5]) [ITerm 4; ITerm 5])), 4. split; [cbn; tauto|]. auto.
Qed.
(** The full statement, that there is a warning when two guards are checked on a symbol, fails: items that are not
    in the kernel of the state are not looked at.  0 -> [=> t4] 1 | [=> t4 t5] 2, 1 -> t4, 2 -> t4 t5 *)
Definition nts_unseen : grammar_of := [(0, [[IGuard 0 [ITerm 4]; INonterm 1]; [IGuard 1 [ITerm 4; ITerm 5]; INonterm 2]]); (1, [[ITerm 4]]); (2, [[ITerm 4; ITerm 5]])].
Theorem C61_closure_refuted : exists d acts, simply_make default nts_unseen = Some ([], d) /\ nth_error (d_actions d) 0 = Some acts /\
  checked_on acts (ITerm 4) (IGuard 0 [ITerm 4]) /\ checked_on acts (ITerm 4) (IGuard 1 [ITerm 4; ITerm 5]).
Proof.
  destruct (simply_make default nts_unseen) as [[ms d]|] eqn:E; [|vm_compute in E; discriminate E]. vm_compute in E. injection E as <- <-. eexists. eexists. split; [reflexivity|]. split; [reflexivity|]. split.
  - eexists. exists 4. split; [left; reflexivity|]. auto.
  - eexists. exists 4. split; [right; left; reflexivity|]. auto.
Qed.
Print Assumptions C61_closure_refuted.
