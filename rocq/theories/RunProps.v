(** C37, C38 and C41: what the parser accepts, and the trees it makes. *)
From Verif Require Import Base OrdMap GrammarModel GrammarProofs FirstModel FirstProofs FollowModel FollowSpec FollowProofs FollowProps LrItemModel LrItemProofs ClosureModel ClosureSpec ClosureProofs ClosureTermProofs ClosureProps MachineModel MachineProofs BuilderModel BuilderSpec BuilderProofs BuilderLookProofs BuilderTermProofs BuilderProps ActionModel ActionSpec ActionProofs ActionProps TableModel TableProofs TableProps RunModel RunSpec RunProofs RunTableProofs RunTool.
Local Open Scope Z_scope.

(** A parser that has been built for a grammar without the end of input in its rules, and tables with
    actions that go with it.  [weak] and [ignorable]: which symbols may be read as others or left out. *)
Record compiled rid rule_of ident sort sort_weak first_of rules u busy languages (weak : Z -> Z -> Prop) (ignorable : Z -> Prop) (weaks : list (item * iset)) (actss : list action_set) (m : machine) (guards : guard_states) : Prop := {
  co_buildable : buildable rid first_of rules u languages;
  co_ends : ~ u IEoi /\ ~ u IEog;
  co_built : built rid first_of rules u busy languages m guards;
  co_ident : forall i j, ident i = ident j -> i = j;
  co_sorts : sorts entry_ltb sort;
  co_fits : fits rid rule_of actss;
  co_actions : faithful rules (kernel m) (step m) weak (strong_for_weak (make_tables rid rule_of ident sort sort_weak actss weaks)) ignorable actss }.
(** The actions of each state, as the builder gives them *)
Definition all_plain rid first_of rules u busy m guards (actss : list action_set) : Prop :=
  Z.of_nat (length actss) = count_states m /\
  forall q acts, nth_error actss q = Some acts -> exists fuel c c', any_calls rid first_of rules u busy c /\ plain_actions rid first_of rules busy fuel m guards (Z.of_nat q) c = Some (acts, c').

Section Built.
  Context rid (first_of : item -> iset) rules u (busy : nat -> list item -> item -> bool) languages m guards (BU : buildable rid first_of rules u languages) (B : built rid first_of rules u busy languages m guards).
  Lemma built_machine : lr0_machine rules (kernel m) (step m).
  Proof.
    destruct (C54_transitions_partial _ _ _ _ _ _ _ _ BU B) as (T1 & T2 & T3). split.
    - intros q x q' S. apply (T1 _ _ _ S).
    - intros q x k NE (k0 & s & S & _) G. apply T2; [unfold is_state; congruence|exact NE|exists k; exact G].
    - exact T3.
  Qed.
  Lemma built_closure q k : closure_item rules (kernel m q) k -> forall j, In j (after_dot k) -> u j.
  Proof.
    intros C. induction C as [k (s & S & K)|k y rest r C IH A E]; intros j J; [eapply (built_items _ _ _ _ _ _ _ _ BU B); eassumption|]. cbn in J. assert (UY : u y) by (apply IH; rewrite A; left; reflexivity). exact (proj2 (proj2 (bu_ordinary _ _ _ _ _ BU y UY)) _ _ E J).
  Qed.
  Lemma built_step q x n : step m q x n -> u x.
  Proof.
    intros S. destruct (C54_transitions_partial _ _ _ _ _ _ _ _ BU B) as (T1 & _). destruct (T1 _ _ _ S) as (_ & IS & _ & G). destruct (C54_states_partial _ _ _ _ _ _ _ _ BU B) as (S1 & _). assert (X : exists k, kernel m n k). { apply S1 in IS. revert IS. generalize (kernel m n) as K. intros K [l _ E|from k p l rest _ _ _ E|from y _ _ [k Y] E]; [exists (language_start l); apply E; reflexivity|exists (guard_start p l); apply E; reflexivity|exists k; apply E; exact Y]. }
    destruct X as (k & K). apply G in K. destruct K as (k0 & rest & C & A & _). apply (built_closure _ _ C). rewrite A. left. reflexivity.
  Qed.
End Built.

Section Plain.
  Context rid (first_of : item -> iset) rules u (busy : nat -> list item -> item -> bool) languages m guards (BU : buildable rid first_of rules u languages) (B : built rid first_of rules u busy languages m guards).
  Lemma plain_faithful actss weak strong ignorable : all_plain rid first_of rules u busy m guards actss -> faithful rules (kernel m) (step m) weak strong ignorable actss.
  Proof.
    intros [LN AP]. split.
    - intros q acts a Q I. destruct (AP _ _ Q) as (fuel & c & c' & AC & PA). destruct (C55_exact_partial _ _ _ _ _ _ _ _ _ _ _ _ _ BU B AC PA) as [_ EX]. pose proof (proj1 (EX a) I) as LA. destruct LA as [x t S X|x t S N1 N2|k x (C & AD & _) _ NT|k x (C & AD & _) _ TR|p l n s _ K _].
      + constructor; assumption.
      + constructor; assumption.
      + apply sound_reduce; auto.
      + apply sound_accept; auto. destruct (C55_accept_partial _ _ _ _ _ _ _ _ _ _ _ _ _ _ BU B AC PA I eq_refl) as [[E _]|[E _]]; auto.
      + eapply sound_guard. exact K.
    - intros q x n S N1 N2. destruct (C54_transitions_partial _ _ _ _ _ _ _ _ BU B) as (T1 & _). destruct (T1 _ _ _ S) as (IS & _). destruct (C54_states_partial _ _ _ _ _ _ _ _ BU B) as (_ & _ & _ & S4). apply S4 in IS. split; [lia|].
      destruct (nth_error actss (Z.to_nat q)) as [acts|] eqn:Q; [|apply nth_error_None in Q; lia]. exists acts. split; [reflexivity|]. destruct (AP _ _ Q) as (fuel & c & c' & AC & PA). destruct (C55_exact_partial _ _ _ _ _ _ _ _ _ _ _ _ _ BU B AC PA) as [_ EX]. rewrite Z2Nat.id in EX by lia. exists (mkAction Goto x n no_rule). split; [apply EX; constructor; assumption|split; reflexivity].
  Qed.
End Plain.

(** C37.  If the parser accepts, then the lexemes of the whole input, without those ignored and with
    those of weak symbols read as strong ones where that was done, can be derived from the language of
    its initial state: they have a parse tree, the item at the top of the stack is the value of that
    tree, and the reductions that were reported, the last one first, are those of a rightmost derivation.
    This is for every kind of lexeme and of item.  Runs that meet undefined behaviour or do not end
    are not covered; neither are grammars with the end of input in their rules. *)
Theorem C37_derivation_partial : forall rid rule_of ident sort sort_weak first_of rules u busy languages weak ignorable weaks actss m guards l q,
  compiled rid rule_of ident sort sort_weak first_of rules u busy languages weak ignorable weaks actss m guards -> (forall k, kernel m q k <-> k = language_start l) ->
  forall L matched renamed V shift_value reduce_value v0 input fuel p,
  parse (make_tables rid rule_of ident sort sort_weak actss weaks) L matched renamed V shift_value reduce_value fuel (start_parser L V q v0 input) = Done (true, p) ->
  p_input p = [] /\ exists tree rs word,
    parses_all rules rid ident L matched renamed weak ignorable [l] [tree] input [] /\
    map snd (s_stack (p_run p)) = [value L V shift_value reduce_value tree; v0] /\
    rightmost rules rs [l] word /\ Forall shiftable word /\ spells L matched weak ignorable word input /\
    reductions L V (s_calls (p_run p)) = reported rid ident rs.
Proof.
  intros rid rule_of ident sort sort_weak first_of rules u busy languages weak ignorable weaks actss m guards l q [BU [E1 E2] B II SO FI FA] KQ L matched renamed V sv rv v0 input fuel p H.
  pose proof (built_machine _ _ _ _ _ _ _ _ BU B) as LM. assert (FN := lm_fun _ _ _ LM). assert (PL : forall q x n, step m q x n -> x <> IEoi /\ x <> IEog) by (intros q0 x n S; apply (built_step _ _ _ _ _ _ _ _ BU B) in S; split; congruence).
  pose proof (made_justified rules (kernel m) (step m) weak ignorable FN PL rid rule_of ident sort sort_weak actss weaks II SO FI FA) as JU.
  pose proof (made_no_accept rules (kernel m) (step m) weak ignorable rid rule_of ident sort sort_weak actss weaks II SO FI FA) as NA.
  assert (TR : top_rule (mkRule IEmpty [l])) by (left; reflexivity).
  destruct (parse_ok rules (kernel m) (step m) LM rid ident II _ weak ignorable JU L matched renamed NA V sv rv q (mkRule IEmpty [l]) KQ TR v0 input fuel (start_parser L V q v0 input) true p) as [_ AC]; [apply start_valid|exact H|].
  destruct (AC eq_refl) as (ts & w & word & rs & -> & IE & PA & VS & RM & FS & SP & RD). split; [exact IE|]. pose proof (all_length _ _ _ _ _ _ _ _ _ _ _ _ PA) as LT. destruct ts as [|tree [|? ?]]; try discriminate LT. exists tree, rs, word. auto 8.
Qed.
Print Assumptions C37_derivation_partial.

(** Nothing but the items of the grammar is derived. *)
Lemma rightmost_items rules first_of u rs a b : ordinary rules first_of u -> rightmost rules rs a b -> Forall u a -> Forall u b.
Proof.
  intros O R. induction R as [a|r rs a w b E F R IH]; intros U; [exact U|]. apply IH. apply Forall_app in U. destruct U as [U1 U2]. inversion U2 as [|y l UY UW]; subst. apply Forall_app. split; [exact U1|]. apply Forall_app. split; [|exact UW]. apply Forall_forall. intros j J. exact (proj2 (proj2 (O _ UY)) _ _ E J).
Qed.
Lemma spells_plain L matched word (w : list L) : spells L matched (fun _ _ => False) (fun _ => False) word w -> (forall p g, ~ In (IGuard p g) word) -> word = map (fun l => ITerm (matched l)) w.
Proof. induction 1 as [|l xs w S IH|? ? ? ? []|? ? ? []|p g xs w S IH]; intros N; [reflexivity|cbn; f_equal; apply IH; intros p g I; apply (N p g); right; exact I|]. exfalso. apply (N p g). left. reflexivity. Qed.
(** With the actions the builder gives, for a grammar without guards: the symbols of the input are
    derived from the language by the rules whose reductions were reported. *)
Theorem C37_plain_partial : forall rid rule_of ident sort sort_weak first_of rules u busy languages actss m guards l q,
  buildable rid first_of rules u languages -> ~ u IEoi -> ~ u IEog -> (forall p g, ~ u (IGuard p g)) -> built rid first_of rules u busy languages m guards -> all_plain rid first_of rules u busy m guards actss ->
  (forall i j, ident i = ident j -> i = j) -> sorts entry_ltb sort -> fits rid rule_of actss -> In l languages -> (forall k, kernel m q k <-> k = language_start l) ->
  forall L matched renamed V shift_value reduce_value v0 input fuel p,
  parse (make_tables rid rule_of ident sort sort_weak actss []) L matched renamed V shift_value reduce_value fuel (start_parser L V q v0 input) = Done (true, p) ->
  exists rs, rightmost rules rs [l] (map (fun x => ITerm (matched x)) input) /\ reductions L V (s_calls (p_run p)) = reported rid ident rs.
Proof.
  intros rid rule_of ident sort sort_weak first_of rules u busy languages actss m guards l q BU E1 E2 NG B AP II SO FI LI KQ L matched renamed V sv rv v0 input fuel p H.
  assert (CO : compiled rid rule_of ident sort sort_weak first_of rules u busy languages (fun _ _ => False) (fun _ => False) [] actss m guards) by (constructor; auto; apply (plain_faithful _ _ _ _ _ _ _ _ BU B); exact AP).
  destruct (C37_derivation_partial _ _ _ _ _ _ _ _ _ _ _ _ _ _ _ _ _ _ CO KQ _ _ _ _ _ _ _ _ _ _ H) as (_ & tree & rs & word & _ & _ & RM & FS & SP & RD). exists rs. split; [|exact RD]. rewrite <- (spells_plain _ _ _ _ SP); [exact RM|]. intros pp g I.
  assert (U : Forall u word) by (eapply rightmost_items; [exact (bu_ordinary _ _ _ _ _ BU)|exact RM|constructor; [apply (bu_languages _ _ _ _ _ BU), LI|constructor]]). rewrite Forall_forall in U. exact (NG _ _ (U _ I)).
Qed.
Print Assumptions C37_plain_partial.

Section Trees.
  Context (rules : Z -> list (list item)) (first_of : item -> iset) (u : item -> Prop) (O : ordinary rules first_of u) (NG : forall p g, ~ u (IGuard p g)).
  Context (rid : rule -> Z) (ident : item -> Z) (L : Type) (matched : L -> Z) (renamed : Z -> L -> L) (weak : Z -> Z -> Prop) (ignorable : Z -> Prop).
  Notation parses := (parses rules rid ident L matched renamed weak ignorable).
  Notation parses_all := (parses_all rules rid ident L matched renamed weak ignorable).
  Notation reads := (reads L matched renamed weak ignorable).
  Scheme parses_min := Minimality for RunSpec.parses Sort Prop
  with parses_all_min := Minimality for RunSpec.parses_all Sort Prop.
  Lemma reads_app ls w : reads ls w -> forall ms v, reads ms v -> reads (ls ++ ms) (w ++ v).
  Proof. induction 1; intros; cbn [app]; [assumption|apply reads_same|apply reads_weak|apply reads_ignored]; auto. Qed.
  Lemma leaves_read xs ts w rest : parses_all xs ts w rest -> Forall u xs -> reads (flat_map (leaves L) ts) w.
  Proof.
    intros H. pattern xs, ts, w, rest. revert xs ts w rest H. apply (parses_all_min rules rid ident L matched renamed weak ignorable (fun x t w rest => u x -> reads (leaves L t) w)).
    - intros l rest _. cbn. apply reads_same. constructor.
    - intros l s rest W _. cbn. apply reads_weak; [exact W|constructor].
    - intros x r ts w rest E PA IH U. cbn [leaves]. apply IH. apply Forall_forall. intros j J. exact (proj2 (proj2 (O _ U)) _ _ E J).
    - intros p g ts w rest _ _ U. exfalso. apply (NG _ _ U).
    - intros rest _. constructor.
    - intros xs ts l w rest I _ IH U. apply reads_ignored; auto.
    - intros x xs t ts w1 w2 rest _ IH1 _ IH2 U. inversion U; subst. cbn [flat_map]. apply reads_app; auto.
  Qed.
  Lemma parses_shaped x t w rest : parses x t w rest -> shaped rules rid ident L x t.
  Proof.
    revert x t w rest. apply (parses_min rules rid ident L matched renamed weak ignorable (fun x t w rest => shaped rules rid ident L x t) (fun xs ts w rest => Forall2 (shaped rules rid ident L) xs ts)).
    - intros. constructor. left. eauto.
    - intros. constructor. left. eauto.
    - intros. constructor; assumption.
    - intros. constructor. right. eauto.
    - constructor.
    - auto.
    - intros. constructor; assumption.
  Qed.
End Trees.
Lemma reads_plain L matched renamed ls (w : list L) : reads L matched renamed (fun _ _ => False) (fun _ => False) ls w -> ls = map Some w.
Proof. induction 1 as [|l ls w R IH|? ? ? ? []|? ? ? []]; [reflexivity|]. cbn. f_equal. exact IH. Qed.
Lemma value_ast {L} : forall t : ast L, value L (ast L) ast_shift ast_reduce t = t.
Proof.
  fix IH 1. intros [l|n r ts]; [reflexivity|]. cbn [value]. unfold ast_reduce. rewrite rev_involutive. f_equal. induction ts as [|t ts IHts]; [reflexivity|]. cbn [map]. rewrite IH, IHts. reflexivity.
Qed.

(** C38.  The tree made by the AST actions: each node is for a rule, with a child for each of its items,
    and, for a grammar without guards, the leaves in order are the lexemes of the input, but for those
    that were ignored and with those of weak symbols renamed. *)
Theorem C38_shape_partial : forall rid rule_of ident sort sort_weak first_of rules u busy languages weak ignorable weaks actss m guards l q,
  compiled rid rule_of ident sort sort_weak first_of rules u busy languages weak ignorable weaks actss m guards -> In l languages -> (forall k, kernel m q k <-> k = language_start l) ->
  forall L matched renamed input fuel v0 p,
  ast_parse (make_tables rid rule_of ident sort sort_weak actss weaks) matched renamed fuel (start_parser L (ast L) q v0 input) = Done (true, p) ->
  exists tree, map snd (s_stack (p_run p)) = [tree; v0] /\ shaped rules rid ident L l tree /\
    ((forall p g, ~ u (IGuard p g)) -> reads L matched renamed weak ignorable (leaves L tree) input).
Proof.
  intros rid rule_of ident sort sort_weak first_of rules u busy languages weak ignorable weaks actss m guards l q CO LI KQ L matched renamed input fuel v0 p H.
  destruct (C37_derivation_partial _ _ _ _ _ _ _ _ _ _ _ _ _ _ _ _ _ _ CO KQ _ _ _ _ _ _ _ _ _ _ H) as (_ & tree & rs & word & PA & VS & _). rewrite value_ast in VS. exists tree. split; [exact VS|]. assert (BU := co_buildable _ _ _ _ _ _ _ _ _ _ _ _ _ _ _ _ CO). split.
  - clear -PA. remember [l] as xs eqn:E1. remember [tree] as ts eqn:E2. remember (@nil L) as rest eqn:E3. revert E1 E2 E3. induction PA as [rest|xs ts i w rest I PA IH|x xs t ts w1 w2 rest P PA IH]; intros; [discriminate E1|auto|]. injection E1 as -> ->. injection E2 as -> ->. eapply parses_shaped. exact P.
  - intros NG. pose proof (leaves_read rules first_of u (bu_ordinary _ _ _ _ _ BU) NG _ _ _ _ _ _ _ _ _ _ _ PA) as R. cbn [flat_map] in R. rewrite app_nil_r in R. apply R. constructor; [apply (bu_languages _ _ _ _ _ BU), LI|constructor].
Qed.
Print Assumptions C38_shape_partial.
(** With the actions the builder gives, the leaves are the input. *)
Theorem C38_leaves_partial : forall rid rule_of ident sort sort_weak first_of rules u busy languages actss m guards l q,
  buildable rid first_of rules u languages -> ~ u IEoi -> ~ u IEog -> (forall p g, ~ u (IGuard p g)) -> built rid first_of rules u busy languages m guards -> all_plain rid first_of rules u busy m guards actss ->
  (forall i j, ident i = ident j -> i = j) -> sorts entry_ltb sort -> fits rid rule_of actss -> In l languages -> (forall k, kernel m q k <-> k = language_start l) ->
  forall L matched renamed input fuel v0 p,
  ast_parse (make_tables rid rule_of ident sort sort_weak actss []) matched renamed fuel (start_parser L (ast L) q v0 input) = Done (true, p) ->
  exists tree, map snd (s_stack (p_run p)) = [tree; v0] /\ shaped rules rid ident L l tree /\ leaves L tree = map Some input.
Proof.
  intros rid rule_of ident sort sort_weak first_of rules u busy languages actss m guards l q BU E1 E2 NG B AP II SO FI LI KQ L matched renamed input fuel v0 p H.
  assert (CO : compiled rid rule_of ident sort sort_weak first_of rules u busy languages (fun _ _ => False) (fun _ => False) [] actss m guards) by (constructor; auto; apply (plain_faithful _ _ _ _ _ _ _ _ BU B); exact AP).
  destruct (C38_shape_partial _ _ _ _ _ _ _ _ _ _ _ _ _ _ _ _ _ _ CO LI KQ _ _ _ _ _ _ _ H) as (tree & VS & SH & R). exists tree. split; [exact VS|]. split; [exact SH|]. eapply reads_plain. apply R, NG.
Qed.
Print Assumptions C38_leaves_partial.

(** Guards can appear twice in the tree: S -> [=> t4] A B and A -> t4 give the lexeme 4 of the input
    4 6 two leaves, as a guard that is used is given the lexeme that follows it. *)
Definition tool_compiled nts us languages weak ignorable : forall m guards actss, tool nts us languages = Some (m, guards, actss) ->
  compiled rule_number (rule_in (all_rules nts us languages)) item_number (insertion_sort entry_ltb) (insertion_sort weak_ltb) (first_by (rules_of nts) 20) (rules_of nts) (fun i => In i us) one_object languages weak ignorable [] actss m guards.
Proof.
  intros m guards actss T. destruct (tool_ok _ _ _ _ _ _ T) as [BU PL B LN AC FI]. split; try assumption; [|apply item_number_injective|apply entry_sorts|].
  - split; intros X; apply PL in X; destruct X as [[? X]|[[? X]|(? & ? & X)]]; discriminate X.
  - eapply plain_faithful; [exact BU|exact B|]. split; assumption.
Qed.
Theorem C38_guard_refuted : exists nts us m guards actss tree p, tool nts us [INonterm 0] = Some (m, guards, actss) /\
  tool_ast (tool_tables nts us [INonterm 0] actss []) 40 0 [4; 6] = Done (true, p) /\ map snd (s_stack (p_run p)) = [tree; Leaf None] /\
  lexemes [4; 6] = [(4, 0); (6, 1)] /\ leaves lex tree = [Some (4, 0); Some (4, 0); Some (6, 1)].
Proof.
  exists nts_guard, items_guard. destruct (tool nts_guard items_guard [INonterm 0]) as [[[m g] a]|] eqn:E; [|vm_compute in E; discriminate E]. vm_compute in E. injection E as <- <- <-.
  eexists. eexists. eexists. eexists. eexists. split; [reflexivity|]. split; [vm_compute; reflexivity|]. split; [reflexivity|]. split; reflexivity.
Qed.
Print Assumptions C38_guard_refuted.

(** C41.  The answer of check_guard, started in the initial state of a guard: if it is not -1, then it is
    the symbol of the guard and a prefix of the input from the given offset matches the guard. *)
Theorem C41_sound_partial : forall rid rule_of ident sort sort_weak first_of rules u busy languages weak ignorable weaks actss m guards p g q,
  compiled rid rule_of ident sort sort_weak first_of rules u busy languages weak ignorable weaks actss m guards -> (forall k, kernel m q k <-> k = guard_start p g) ->
  forall L matched renamed input under fuel offset seen a seen',
  check_guard (make_tables rid rule_of ident sort sort_weak actss weaks) L matched renamed input under fuel q offset seen = Done (a, seen') ->
  a = -1 \/ a = ident (IGuard p g) /\ exists ts w rest, skipn offset input = w ++ rest /\ parses_all rules rid ident L matched renamed weak ignorable g ts w rest.
Proof.
  intros rid rule_of ident sort sort_weak first_of rules u busy languages weak ignorable weaks actss m guards p g q [BU [E1 E2] B II SO FI FA] KQ L matched renamed input under fuel offset seen a seen' H.
  pose proof (built_machine _ _ _ _ _ _ _ _ BU B) as LM. assert (FN := lm_fun _ _ _ LM). assert (PL : forall q x n, step m q x n -> x <> IEoi /\ x <> IEog) by (intros q0 x n S; apply (built_step _ _ _ _ _ _ _ _ BU B) in S; split; congruence).
  pose proof (made_justified rules (kernel m) (step m) weak ignorable FN PL rid rule_of ident sort sort_weak actss weaks II SO FI FA) as JU.
  pose proof (made_no_accept rules (kernel m) (step m) weak ignorable rid rule_of ident sort sort_weak actss weaks II SO FI FA) as NA.
  exact (check_guard_ok rules (kernel m) (step m) LM rid ident II _ weak ignorable JU L matched renamed NA _ _ _ _ _ _ _ _ _ _ KQ H).
Qed.
Print Assumptions C41_sound_partial.
(** One step of the parser takes at most one lexeme from the input; a step that uses a guard takes none. *)
Theorem C41_input : forall t L matched renamed V shift_value reduce_value fuel p r p', process t L matched renamed V shift_value reduce_value fuel p = Done (r, p') ->
  p_input p' = p_input p \/ r = More /\ exists l, p_input p = l :: p_input p'.
Proof.
  intros t L matched renamed V sv rv fuel p r p' H. unfold process in H. destruct (symbol_of_look _ _ _ _) as [terminal symbol]. cbn [p_run p_input p_seen] in H. done_in H q TP. done_in H es FS. revert H. clear. set (la := match nth_error _ _ with Some l => Lexeme l | None => End end). clearbody la. generalize (Nat.max (p_seen p) (Nat.min 1 (length (p_input p)))) as sn. generalize (p_run p) as d. generalize (p_input p) as input. clear p.
  induction es as [|e es IH]; intros input d sn H; cbn [choose] in H; [injection H as <- <-; left; reflexivity|]. destruct (negb _); [injection H as <- <-; left; reflexivity|]. cbn [p_run p_input p_seen] in H. done_in H go GO. destruct (negb go); [exact (IH _ _ _ H)|].
  assert (ACT : (do (b, d0) <- perform t L matched renamed (standard_actions t L V sv rv) la e d ;; let p := mkParser d0 input sn in if b : bool then do p <- next_lexeme L V p ;; Done (More, p) else Done (More, p)) = Done (r, p') -> p_input p' = input \/ r = More /\ exists l, input = l :: p_input p').
  { intros X. done_in X bd PF. destruct bd as [b d']. destruct b; [|injection X as <- <-; left; reflexivity]. cbv zeta in X. done_in X p1 NL. injection X as <- <-. unfold next_lexeme in NL. cbn [p_input p_run p_seen] in NL. destruct input as [|l input]; [discriminate NL|]. injection NL as <-. right. split; [reflexivity|]. exists l. reflexivity. }
  destruct (e_type e); try (exact (ACT H)).
  - injection H as <- <-. left. reflexivity.
  - done_in H ag CG. destruct ag as [a seen]. destruct (a <? 0); [exact (IH _ _ _ H)|]. done_in H bd PG. destruct bd as [b d']. destruct b; [injection H as <- <-; left; reflexivity|exact (IH _ _ _ H)].
Qed.
Print Assumptions C41_input.
(** Not every guard that matches is used.  For 0 -> [=> 1 t5] t4 t5 and 1 -> t4 | t4 t5, the input 4 5
    matches the guard, but the check shifts 5 as a part of 1, and fails; the parser rejects the input. *)
Definition nts_missed : grammar_of := [(0, [[IGuard 0 [INonterm 1; ITerm 5]; ITerm 4; ITerm 5]]); (1, [[ITerm 4]; [ITerm 4; ITerm 5]])].
Definition items_missed : list item := [INonterm 0; INonterm 1; ITerm 4; ITerm 5; IGuard 0 [INonterm 1; ITerm 5]].
Theorem C41_missed_refuted : exists m guards actss q seen ts tree p, tool nts_missed items_missed [INonterm 0] = Some (m, guards, actss) /\
  (forall k, kernel m q k <-> k = guard_start 0 [INonterm 1; ITerm 5]) /\
  parses_all (rules_of nts_missed) rule_number item_number lex fst lex_renamed (fun _ _ => False) (fun _ => False) [INonterm 1; ITerm 5] ts (lexemes [4; 5]) [] /\
  check_guard (tool_tables nts_missed items_missed [INonterm 0] actss []) lex fst lex_renamed (lexemes [4; 5]) [0] 40 q 0 0 = Done (-1, seen) /\
  parses_all (rules_of nts_missed) rule_number item_number lex fst lex_renamed (fun _ _ => False) (fun _ => False) [INonterm 0] [tree] (lexemes [4; 5]) [] /\
  tool_ast (tool_tables nts_missed items_missed [INonterm 0] actss []) 40 0 [4; 5] = Done (false, p).
Proof.
  destruct (tool nts_missed items_missed [INonterm 0]) as [[[m g] a]|] eqn:E; [|vm_compute in E; discriminate E]. vm_compute in E. injection E as <- <- <-.
  assert (G : parses_all (rules_of nts_missed) rule_number item_number lex fst lex_renamed (fun _ _ => False) (fun _ => False) [INonterm 1; ITerm 5] [Node (item_number (INonterm 1)) (rule_number (mkRule (INonterm 1) [ITerm 4])) [Leaf (Some (4, 0))]; Leaf (Some (5, 1))] (lexemes [4; 5]) []).
  { apply (all_next _ _ _ _ _ _ _ _ (INonterm 1) [ITerm 5] _ [Leaf (Some (5, 1))] [(4, 0)] [(5, 1)] []).
    - apply parses_rule; [constructor; left; reflexivity|]. apply all_one. apply (parses_term _ _ _ lex fst _ _ _ (4, 0)).
    - apply all_one. apply (parses_term _ _ _ lex fst _ _ _ (5, 1)). }
  eexists. eexists. eexists. exists 1. eexists. eexists. eexists. eexists. split; [reflexivity|]. split.
  { intros k. split; [intros (s & S & K); vm_compute in S; injection S as <-; destruct K as [<-|[]]; reflexivity|intros ->; eexists; split; [vm_compute; reflexivity|left; reflexivity]]. }
  split; [exact G|]. split; [vm_compute; reflexivity|]. split; [|vm_compute; reflexivity].
  apply all_one. apply parses_rule; [constructor; left; reflexivity|].
  apply (all_next _ _ _ _ _ _ _ _ (IGuard 0 [INonterm 1; ITerm 5]) [ITerm 4; ITerm 5] (Leaf (Some (4, 0))) [Leaf (Some (4, 0)); Leaf (Some (5, 1))] [] (lexemes [4; 5]) []).
  - exact (parses_guard _ _ _ _ _ _ _ _ _ _ _ _ [] G).
  - apply (all_next _ _ _ _ _ _ _ _ (ITerm 4) [ITerm 5] _ [Leaf (Some (5, 1))] [(4, 0)] [(5, 1)] []); [apply (parses_term _ _ _ lex fst _ _ _ (4, 0))|]. apply all_one. apply (parses_term _ _ _ lex fst _ _ _ (5, 1)).
Qed.
Print Assumptions C41_missed_refuted.

(** 0 -> 0 t5 1 | 1 and 1 -> t4 | t6 0 t7, with the input 4 5 6 4 5 4 7; and the grammar with a guard of
    C38_guard_refuted *)
Definition nts_expr : grammar_of := [(0, [[INonterm 0; ITerm 5; INonterm 1]; [INonterm 1]]); (1, [[ITerm 4]; [ITerm 6; INonterm 0; ITerm 7]])].
Definition items_expr : list item := [INonterm 0; INonterm 1; ITerm 4; ITerm 5; ITerm 6; ITerm 7].
Example C37_nontrivial : exists m guards actss p, tool nts_expr items_expr [INonterm 0] = Some (m, guards, actss) /\
  compiled rule_number (rule_in (all_rules nts_expr items_expr [INonterm 0])) item_number (insertion_sort entry_ltb) (insertion_sort weak_ltb) (first_by (rules_of nts_expr) 20) (rules_of nts_expr) (fun i => In i items_expr) one_object [INonterm 0] (fun _ _ => False) (fun _ => False) [] actss m guards /\
  all_plain rule_number (first_by (rules_of nts_expr) 20) (rules_of nts_expr) (fun i => In i items_expr) one_object m guards actss /\
  (forall k, kernel m 0 k <-> k = language_start (INonterm 0)) /\
  tool_ast (tool_tables nts_expr items_expr [INonterm 0] actss []) 40 0 [4; 5; 6; 4; 5; 4; 7] = Done (true, p) /\ length (reductions lex (ast lex) (s_calls (p_run p))) = 8%nat.
Proof.
  destruct (tool nts_expr items_expr [INonterm 0]) as [[[m g] a]|] eqn:E; [|vm_compute in E; discriminate E]. pose proof (tool_compiled _ _ _ (fun _ _ => False) (fun _ => False) _ _ _ E) as CO. destruct (tool_ok _ _ _ _ _ _ E) as [_ _ _ LN AC _]. vm_compute in E. injection E as <- <- <-.
  eexists. eexists. eexists. eexists. split; [reflexivity|]. split; [exact CO|]. split; [split; [exact LN|exact AC]|]. split.
  { intros k. split; [intros (s & S & K); vm_compute in S; injection S as <-; destruct K as [<-|[]]; reflexivity|intros ->; eexists; split; [vm_compute; reflexivity|left; reflexivity]]. }
  split; [vm_compute; reflexivity|reflexivity].
Qed.
Example C41_nontrivial : exists m guards actss p seen seen', tool nts_guard items_guard [INonterm 0] = Some (m, guards, actss) /\
  compiled rule_number (rule_in (all_rules nts_guard items_guard [INonterm 0])) item_number (insertion_sort entry_ltb) (insertion_sort weak_ltb) (first_by (rules_of nts_guard) 20) (rules_of nts_guard) (fun i => In i items_guard) one_object [INonterm 0] (fun _ _ => False) (fun _ => False) [] actss m guards /\
  (forall k, kernel m 1 k <-> k = guard_start 0 [ITerm 4]) /\
  check_guard (tool_tables nts_guard items_guard [INonterm 0] actss []) lex fst lex_renamed (lexemes [6; 4; 6]) [0] 40 1 1 0 = Done (item_number (IGuard 0 [ITerm 4]), seen) /\
  check_guard (tool_tables nts_guard items_guard [INonterm 0] actss []) lex fst lex_renamed (lexemes [6; 4; 6]) [0] 40 1 0 0 = Done (-1, seen') /\
  tool_ast (tool_tables nts_guard items_guard [INonterm 0] actss []) 40 0 [4; 4; 5; 6; 6] = Done (true, p).
Proof.
  destruct (tool nts_guard items_guard [INonterm 0]) as [[[m g] a]|] eqn:E; [|vm_compute in E; discriminate E]. pose proof (tool_compiled _ _ _ (fun _ _ => False) (fun _ => False) _ _ _ E) as CO. vm_compute in E. injection E as <- <- <-.
  eexists. eexists. eexists. eexists. eexists. eexists. split; [reflexivity|]. split; [exact CO|]. split.
  { intros k. split; [intros (s & S & K); vm_compute in S; injection S as <-; destruct K as [<-|[]]; reflexivity|intros ->; eexists; split; [vm_compute; reflexivity|left; reflexivity]]. }
  split; [vm_compute; reflexivity|]. split; vm_compute; reflexivity.
Qed.
