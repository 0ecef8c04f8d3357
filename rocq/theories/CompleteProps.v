(** C58: the parser accepts everything in the language, for grammars without conflicts. *)
From Verif Require Import Base OrdMap GrammarModel GrammarProofs FirstModel FirstSpec FirstProofs FirstProps FollowModel FollowSpec FollowProofs FollowProps LrItemModel LrItemProofs ClosureModel ClosureSpec ClosureProofs ClosureTermProofs ClosureProps MachineModel MachineProofs BuilderModel BuilderSpec BuilderProofs BuilderLookProofs BuilderTermProofs BuilderProps ActionModel ActionSpec ActionProofs ActionProps TableModel TableProofs TableProps RunModel RunSpec RunProofs RunTableProofs RunTool RunProps ConflictModel ConflictSpec ConflictProofs ConflictProps DriveProofs CompleteProofs.
Local Open Scope Z_scope.

(** A parser for a grammar without guards, with the actions the builder gives *)
Record plain_parser rid rule_of (ident : item -> Z) sort first_of rules u busy languages actss m guards : Prop := {
  pp_buildable : buildable rid first_of rules u languages;
  pp_ends : ~ u IEoi /\ ~ u IEog;
  pp_guards : forall p g, ~ u (IGuard p g);
  pp_built : built rid first_of rules u busy languages m guards;
  pp_actions : all_plain rid first_of rules u busy m guards actss;
  pp_ident : forall i j : item, ident i = ident j -> i = j;
  pp_sorts : sorts entry_ltb sort;
  pp_fits : fits rid rule_of actss }.
(** The FIRST sets the parser was built with are right. *)
Record right_first rules first_of u : Prop := {
  rf_closed : closed rules u;
  rf_repeat : no_empty_repeat u;
  rf_first : forall i, u i -> first_set rules i (first_of i) }.
(** No conflict is reported, and no state that accepts at the end of the input could reduce as well (which
    is not reported: see C43_cycle_refuted). *)
Record no_conflict rid first_of rules u busy languages m guards : Prop := {
  nc_reported : exists sources fuel c c', any_calls rid first_of rules u busy c /\ find_conflicts rid first_of rules busy sources fuel m guards [] c = Some ([], c');
  nc_accept : forall q a b, lalr_action rules first_of languages (kernel m) (step m) q a -> lalr_action rules first_of languages (kernel m) (step m) q b -> a_type a = Accept -> a_type b = Reduce -> a_item a <> a_item b }.

Section Plain.
  Context rid rule_of ident sort (sort_weak : list (Z * Z) -> list (Z * Z)) first_of rules u busy languages actss m guards (PP : plain_parser rid rule_of ident sort first_of rules u busy languages actss m guards) (RF : right_first rules first_of u).
  Let BU := pp_buildable _ _ _ _ _ _ _ _ _ _ _ _ PP.
  Let B := pp_built _ _ _ _ _ _ _ _ _ _ _ _ PP.
  Notation acts_of := (lalr_action rules first_of languages (kernel m) (step m)).

  Lemma look_top q k x : lalr_look rules first_of languages Z (kernel m) (step m) q k x -> top_rule (l_rule k) -> x = IEoi /\ (exists l, l_rule k = mkRule IEmpty [l]) \/ x = IEog.
  Proof.
    induction 1 as [q l I K|q p l K|q k y rest r x C A E BG|q k y rest r x LK IH A E S|q k y rest q' x LK IH A S]; cbn [l_rule]; intros T; auto; [left; split; [reflexivity|exists l; reflexivity]| |]; exfalso; eapply expands_no_top; eassumption.
  Qed.
  Lemma step_plain q x n : step m q x n -> x <> IEoi /\ x <> IEog /\ forall p g, x <> IGuard p g.
  Proof. intros S. apply (built_step _ _ _ _ _ _ _ _ BU B) in S. destruct (pp_ends _ _ _ _ _ _ _ _ _ _ _ _ PP). pose proof (pp_guards _ _ _ _ _ _ _ _ _ _ _ _ PP). repeat split; intros; intros ->; auto. eapply H1, S. Qed.
  Lemma closure_top q k l : closure_item rules (kernel m q) k -> l_rule k = mkRule IEmpty [l] -> kernel m q k.
  Proof. intros C E. destruct C as [k K|k y rest r C A X]; [exact K|]. cbn in E. injection E as -> _. inversion X. Qed.
  Lemma start_alone K : lr0_state rules languages K -> forall l l', K (language_start l) -> K (language_start l') -> l = l'.
  Proof.
    intros [l0 _ E|from k p g rest _ _ _ E|from x _ _ _ E] l l' K1 K2; apply E in K1; apply E in K2; [assert (X : language_start l = language_start l') by congruence; injection X; auto|discriminate K1|]. destruct K1 as (k0 & r0 & _ & _ & X). discriminate X.
  Qed.
  Lemma end_alone q l l' : is_state m q -> kernel m q (mkLr0 (mkRule IEmpty [l]) 1) -> kernel m q (mkLr0 (mkRule IEmpty [l']) 1) -> l = l'.
  Proof.
    intros IS K1 K2. destruct (C54_states_partial _ _ _ _ _ _ _ _ BU B) as (S1 & _). specialize (S1 q IS). inversion S1 as [l0 _ E|from k p g rest _ _ _ E|from x LS _ _ E]; apply E in K1; apply E in K2; try discriminate K1.
    destruct K1 as (k1 & r1 & C1 & A1 & X1), K2 as (k2 & r2 & C2 & A2 & X2). destruct k1 as [rr1 o1], k2 as [rr2 o2]. unfold advance in X1, X2. cbn in X1, X2. injection X1 as <- <-. injection X2 as <- <-.
    assert (T : forall l, closure_item rules from (mkLr0 (mkRule IEmpty [l]) 0) -> from (mkLr0 (mkRule IEmpty [l]) 0)). { intros l1 C. inversion C as [k K|k y rest r C' A X]; subst; [assumption|]. inversion X. }
    eapply start_alone; [exact LS|apply T, C1|apply T, C2].
  Qed.
  Lemma kernel_state q k : kernel m q k -> is_state m q.
  Proof. intros (s & S & _). unfold is_state. congruence. Qed.

  Lemma top_offset q l o : kernel m q (mkLr0 (mkRule IEmpty [l]) o) -> (o <= 1)%nat.
  Proof.
    intros K. destruct (C54_states_partial _ _ _ _ _ _ _ _ BU B) as (S1 & _). specialize (S1 q (kernel_state _ _ K)). inversion S1 as [l0 _ E|from k p g rest _ _ _ E|from x LS _ _ E]; apply E in K; [injection K as _ ->; lia|discriminate K|].
    destruct K as ([r1 o1] & rest & _ & A & X). unfold advance in X. cbn in X. injection X as <- ->. unfold after_dot in A. cbn in A. destruct o1 as [|o1]; [lia|]. destruct o1; discriminate A.
  Qed.
  Lemma starts_in y x : FirstSpec.starts rules y x -> u y -> u x.
  Proof. induction 1 as [s _|i pre y post s H NN S IH]; intros U; [exact U|]. apply IH. eapply (rf_closed _ _ _ RF); [exact U|exact H|apply in_elt]. Qed.
  Lemma look_plain q k x : lalr_look rules first_of languages Z (kernel m) (step m) q k x -> x = IEoi \/ x = IEog \/ u x.
  Proof.
    induction 1 as [q l I K|q p l K|q k y rest r x C A E BG|q k y rest r x LK IH A E S|q k y rest q' x LK IH A S]; auto. right. right. destruct BG as (p & y' & rest' & -> & _ & F & NE).
    assert (U : u y') by (apply (built_closure _ _ _ _ _ _ _ _ BU B _ _ C); rewrite A; right; apply in_elt). apply (rf_first _ _ _ RF _ U) in F. destruct F as [[X _]|F]; [contradiction|]. eapply starts_in; eassumption.
  Qed.

  Lemma plain_decided : no_conflict rid first_of rules u busy languages m guards -> forall q a b, acts_of q a -> acts_of q b -> a_item a = a_item b -> a_item a = IEoi \/ (exists s, a_item a = ITerm s) -> a = b.
  Proof.
    intros [(sources & fuel & c & c' & AC & FC) NA] q a b A1 B1 E D. destruct (C36_exact_partial _ _ _ _ _ _ _ _ _ _ _ _ _ BU B AC FC) as [EX _]. cbn [map In] in EX.
    assert (Q1 : forall a, acts_of q a -> is_state m q).
    { intros a' A'. destruct A'; try (destruct (C54_transitions_partial _ _ _ _ _ _ _ _ BU B) as (T1 & _); apply (T1 _ _ _ H)); try (destruct H as (C & _); apply CompleteProofs.closure_kernel in C; destruct C as [k0 C]; exact (kernel_state _ _ C)).
      destruct H as [[t H]|[k (C & _)]]; [destruct (C54_transitions_partial _ _ _ _ _ _ _ _ BU B) as (T1 & _); apply (T1 _ _ _ H)|apply CompleteProofs.closure_kernel in C; destruct C as [k0 C]; exact (kernel_state _ _ C)]. }
    assert (NSR : forall a b, acts_of q a -> acts_of q b -> a_item a = a_item b -> a_type a = Shift -> a_type b = Reduce -> False).
    { intros x y X Y EI TX TY. apply (proj2 (EX q (a_item x))). split; [exact (Q1 _ X)|]. left. exists x, y. auto 6. }
    assert (NRR : forall a b, acts_of q a -> acts_of q b -> a_item a = a_item b -> a_type a = Reduce -> a_type b = Reduce -> a_rule a <> a_rule b -> False).
    { intros x y X Y EI TX TY NE. apply (proj2 (EX q (a_item x))). split; [exact (Q1 _ X)|]. right. exists x, y. split; [exact X|]. split; [exact Y|]. split; [congruence|]. auto. }
    assert (GT : forall x n, step m q x n -> (forall s, x <> ITerm s) -> x = IEoi \/ (exists s, x = ITerm s) -> False). { intros x n S NT [-> | [s ->]]; [apply (proj1 (step_plain _ _ _ S)); reflexivity|apply (NT s); reflexivity]. }
    assert (AT : forall k x, complete_on rules first_of languages (kernel m) (step m) q k x -> top_rule (l_rule k) -> x = IEoi \/ (exists s, x = ITerm s) -> x = IEoi /\ exists l, k = mkLr0 (mkRule IEmpty [l]) 1 /\ kernel m q k).
    { intros k x (C & AD & LK) T DX. destruct (look_top _ _ _ LK T) as [[-> [l R]]| ->]; [|destruct DX as [X|[s X]]; discriminate X]. split; [reflexivity|]. exists l. pose proof (closure_top _ _ _ C R) as K. split; [|exact K]. destruct k as [rk ok]. cbn in R. subst rk. apply top_offset in K as LE. unfold after_dot in AD. cbn in AD, LE. destruct ok as [|[|ok]]; [discriminate AD|reflexivity|lia]. }
    pose proof (lm_fun _ _ _ (built_machine _ _ _ _ _ _ _ _ BU B)) as FN.
    assert (NG : forall x n, step m q x n -> forall p l, x <> IGuard p l) by (intros x n S; apply (step_plain _ _ _ S)).
    assert (NGA : forall p l, (exists t, step m q (IGuard p l) t) \/ (exists k, complete_on rules first_of languages (kernel m) (step m) q k (IGuard p l)) -> False).
    { intros p l [[t S]|[k (_ & _ & LK)]]; [eapply NG; [exact S|reflexivity]|]. apply look_plain in LK. destruct LK as [X|[X|X]]; try discriminate X. eapply (pp_guards _ _ _ _ _ _ _ _ _ _ _ _ PP), X. }
    destruct A1 as [x t S X|x t S N1 N2|k x CO IX NT|k x CO IX TR|p l n s GX _ _].
    - destruct B1 as [y t' S' Y|y t' S' M1 M2|k' y CO' IY NT'|k' y CO' IY TR'|p l n s GX _ _]; cbn [a_item] in *; subst.
      + rewrite (FN _ _ _ _ S S'). reflexivity.
      + exfalso. eapply GT; eassumption.
      + exfalso. eapply (NSR (mkAction Shift y t no_rule) (mkAction Reduce y (-1) (l_rule k'))); try reflexivity; constructor; assumption.
      + exfalso. destruct (AT _ _ CO' TR' D) as [-> _]. apply (proj1 (step_plain _ _ _ S)). reflexivity.
      + exfalso. eapply NGA, GX.
    - exfalso. eapply GT; eassumption.
    - destruct B1 as [y t' S' Y|y t' S' M1 M2|k' y CO' IY NT'|k' y CO' IY TR'|p l n s GX _ _]; cbn [a_item] in *; subst.
      + exfalso. eapply (NSR (mkAction Shift y t' no_rule) (mkAction Reduce y (-1) (l_rule k))); try reflexivity; constructor; assumption.
      + exfalso. eapply GT; eassumption.
      + destruct (rule_eqb (l_rule k) (l_rule k')) eqn:RE; [apply rule_eqb_spec in RE; rewrite RE; reflexivity|]. exfalso. eapply (NRR (mkAction Reduce y (-1) (l_rule k)) (mkAction Reduce y (-1) (l_rule k'))); try reflexivity; try (constructor; assumption). cbn. intros RX. apply rule_eqb_spec in RX. congruence.
      + exfalso. eapply (NA q (mkAction Accept y (-1) (l_rule k')) (mkAction Reduce y (-1) (l_rule k))); try reflexivity; constructor; assumption.
      + exfalso. eapply NGA, GX.
    - destruct (AT _ _ CO TR D) as (-> & l0 & -> & K0). destruct B1 as [y t' S' Y|y t' S' M1 M2|k' y CO' IY NT'|k' y CO' IY TR'|p l n s GX _ _]; cbn [a_item] in *; subst.
      + exfalso. apply (proj1 (step_plain _ _ _ S')). reflexivity.
      + exfalso. apply (proj1 (step_plain _ _ _ S')). reflexivity.
      + exfalso. eapply (NA q (mkAction Accept IEoi (-1) (l_rule (mkLr0 (mkRule IEmpty [l0]) 1))) (mkAction Reduce IEoi (-1) (l_rule k'))); try reflexivity; constructor; assumption.
      + destruct (AT _ _ CO' TR' D) as (_ & l1 & -> & K1). rewrite (end_alone q l0 l1); [reflexivity|eapply kernel_state, K0|exact K0|exact K1].
      + discriminate E.
    - exfalso. eapply NGA, GX.
  Qed.

  Lemma plain_actions_exact q acts : nth_error actss q = Some acts -> forall a, In a acts <-> acts_of (Z.of_nat q) a.
  Proof. intros N a. destruct (pp_actions _ _ _ _ _ _ _ _ _ _ _ _ PP) as [_ AP]. destruct (AP _ _ N) as (fuel & c & c' & AC & PA). apply (C55_exact_partial _ _ _ _ _ _ _ _ _ _ _ _ _ BU B AC PA). Qed.
  Lemma plain_range q k : kernel m q k -> 0 <= q < Z.of_nat (length actss).
  Proof. intros K. destruct (pp_actions _ _ _ _ _ _ _ _ _ _ _ _ PP) as [LN _]. rewrite LN. apply (C54_states_partial _ _ _ _ _ _ _ _ BU B). eapply kernel_state, K. Qed.
  Lemma plain_step_kernel q x n : step m q x n -> exists k, kernel m n k.
  Proof.
    intros S. destruct (C54_transitions_partial _ _ _ _ _ _ _ _ BU B) as (T1 & _). destruct (T1 _ _ _ S) as (_ & IS & _). destruct (C54_states_partial _ _ _ _ _ _ _ _ BU B) as (S1 & _). apply S1 in IS. revert IS. generalize (kernel m n) as K. intros K [l _ E|from k p l rest _ _ _ E|from y _ _ [k Y] E]; [exists (language_start l); apply E; reflexivity|exists (guard_start p l); apply E; reflexivity|exists k; apply E; exact Y].
  Qed.
  Lemma plain_goto q x q' : step m q x q' -> (forall s, x <> ITerm s) -> find_goto (make_tables rid rule_of ident sort sort_weak actss []) q (ident x) = Done (Some q').
  Proof.
    intros S NT. pose proof (built_machine _ _ _ _ _ _ _ _ BU B) as LM. assert (FN := lm_fun _ _ _ LM). destruct (pp_ends _ _ _ _ _ _ _ _ _ _ _ _ PP) as [E1 E2]. assert (PL : forall q x n, step m q x n -> x <> IEoi /\ x <> IEog) by (intros q0 y n X; apply step_plain in X; tauto).
    assert (FA := plain_faithful _ _ _ _ _ _ _ _ BU B actss (fun _ _ => False) (strong_for_weak (make_tables rid rule_of ident sort sort_weak actss [])) (fun _ => False) (pp_actions _ _ _ _ _ _ _ _ _ _ _ _ PP)).
    pose proof (made_justified rules (kernel m) (step m) (fun _ _ => False) (fun _ => False) FN PL rid rule_of ident sort sort_weak actss [] (pp_ident _ _ _ _ _ _ _ _ _ _ _ _ PP) (pp_sorts _ _ _ _ _ _ _ _ _ _ _ _ PP) (pp_fits _ _ _ _ _ _ _ _ _ _ _ _ PP) FA) as JU.
    destruct (step_plain _ _ _ S) as (N1 & N2 & N3). eapply ju_goto; [exact JU|exact S|exact N1|exact N2|exact NT|exact N3].
  Qed.
  Lemma plain_items : forall i, u i -> i <> IEmpty /\ forall p g, i <> IGuard p g.
  Proof. intros i U. split; [apply (bu_ordinary _ _ _ _ _ BU), U|]. intros p g ->. eapply (pp_guards _ _ _ _ _ _ _ _ _ _ _ _ PP), U. Qed.
  Lemma plain_all_decided : no_conflict rid first_of rules u busy languages m guards -> forall acts, In acts actss -> decided acts.
  Proof. intros NC acts I. apply In_nth_error in I. destruct I as [q N]. intros a b A1 B1. apply (plain_decided NC (Z.of_nat q)); eapply plain_actions_exact; eassumption. Qed.
End Plain.

(** If no conflict is reported (and none remains at the end of the input), the parser
    accepts everything that has a parse tree, and the item it leaves on the stack is the value of that
    tree.  This is for grammars without guards, whose FIRST sets are right, and actions without
    rewriters. *)
Theorem C58_complete_partial : forall rid rule_of ident sort sort_weak first_of rules u busy languages actss m guards l q,
  plain_parser rid rule_of ident sort first_of rules u busy languages actss m guards -> right_first rules first_of u -> no_conflict rid first_of rules u busy languages m guards ->
  In l languages -> (forall k, kernel m q k <-> k = language_start l) ->
  forall L matched renamed V shift_value reduce_value v0 tree input,
  parses_all rules rid ident L matched renamed (fun _ _ => False) (fun _ => False) [l] [tree] input [] ->
  exists n, forall fuel, (n <= fuel)%nat -> exists p, parse (make_tables rid rule_of ident sort sort_weak actss []) L matched renamed V shift_value reduce_value fuel (start_parser L V q v0 input) = Done (true, p) /\
    map snd (s_stack (p_run p)) = [value L V shift_value reduce_value tree; v0].
Proof.
  intros rid rule_of ident sort sort_weak first_of rules u busy languages actss m guards l q PP RF NC LI KQ L matched renamed V sv rv v0 tree input P. pose proof PP as [BU UE NG B AP II SO FI].
  eapply (complete rules first_of languages (kernel m) (step m) (built_machine _ _ _ _ _ _ _ _ BU B) u (plain_items _ _ _ _ _ _ _ _ _ _ _ _ PP) (built_step _ _ _ _ _ _ _ _ BU B) rid rule_of ident sort sort_weak actss [] II SO FI); try eassumption.
  - apply (plain_actions_exact _ _ _ _ _ _ _ _ _ _ _ _ PP).
  - apply (plain_range _ _ _ _ _ _ _ _ _ _ _ _ PP).
  - apply (plain_step_kernel _ _ _ _ _ _ _ _ _ _ _ _ PP).
  - eapply plain_all_decided; eassumption.
  - eapply plain_goto. exact PP.
  - apply (built_closure _ _ _ _ _ _ _ _ BU B).
  - apply (rf_closed _ _ _ RF).
  - apply (rf_repeat _ _ _ RF).
  - intros i r j U E J. exact (proj2 (proj2 (bu_ordinary _ _ _ _ _ BU i U)) _ _ E J).
  - apply (rf_first _ _ _ RF).
Qed.
Print Assumptions C58_complete_partial.

Lemma derived_parses rules rid ident L matched renamed rs a b : rightmost rules rs a b -> forall w : list L, b = map (fun x => ITerm (matched x)) w -> exists ts, parses_all rules rid ident L matched renamed (fun _ _ => False) (fun _ => False) a ts w [].
Proof.
  induction 1 as [a|r rs a w0 b E F R IH]; intros w Q.
  - subst a. exists (map (fun l => Leaf (Some l)) w). induction w as [|l w IH]; cbn [map]; [constructor|]. apply (all_next _ _ _ _ _ _ _ _ _ _ _ _ [l] w []); [constructor|exact IH].
  - destruct (IH _ Q) as [ts P]. destruct (all_app_inv _ _ _ _ _ _ _ _ _ _ _ _ _ P) as (t1 & t2 & w1 & w2 & -> & -> & _ & P1 & P2). destruct (all_app_inv _ _ _ _ _ _ _ _ _ _ _ _ _ P2) as (t3 & t4 & w3 & w4 & -> & -> & _ & P3 & P4).
    destruct r as [x its]. cbn [r_nonterminal r_items] in *. eexists. eapply all_app; [exact P1|]. eapply all_next; [apply parses_rule; [exact E|exact P3]|exact P4].
Qed.
(** So the language the parser accepts is exactly the one the grammar describes. *)
Theorem C58_language_partial : forall rid rule_of ident sort sort_weak first_of rules u busy languages actss m guards l q,
  plain_parser rid rule_of ident sort first_of rules u busy languages actss m guards -> right_first rules first_of u -> no_conflict rid first_of rules u busy languages m guards ->
  In l languages -> (forall k, kernel m q k <-> k = language_start l) ->
  forall L matched renamed V shift_value reduce_value v0 input,
  (exists fuel p, parse (make_tables rid rule_of ident sort sort_weak actss []) L matched renamed V shift_value reduce_value fuel (start_parser L V q v0 input) = Done (true, p)) <->
  exists rs, rightmost rules rs [l] (map (fun x => ITerm (matched x)) input).
Proof.
  intros rid rule_of ident sort sort_weak first_of rules u busy languages actss m guards l q PP RF NC LI KQ L matched renamed V sv rv v0 input. split.
  - intros (fuel & p & H). destruct PP as [BU [E1 E2] NG B AP II SO FI]. destruct (C37_plain_partial _ _ _ _ _ _ _ _ _ _ _ _ _ _ _ BU E1 E2 NG B AP II SO FI LI KQ _ _ _ _ _ _ _ _ _ _ H) as (rs & R & _). exists rs. exact R.
  - intros (rs & R). destruct (derived_parses rules rid ident L matched renamed _ _ _ R input eq_refl) as [ts P]. pose proof (all_length _ _ _ _ _ _ _ _ _ _ _ _ P) as LN. destruct ts as [|tree [|? ?]]; try discriminate LN.
    destruct (C58_complete_partial _ _ _ _ sort_weak _ _ _ _ _ _ _ _ _ _ PP RF NC LI KQ L matched renamed V sv rv v0 tree input P) as [n X]. destruct (X n (le_n n)) as (p & H & _). exists n, p. exact H.
Qed.
Print Assumptions C58_language_partial.
(** And a grammar without conflicts is not ambiguous: a sequence of lexemes has at most one parse tree. *)
Theorem C58_one_tree_partial : forall rid rule_of ident sort first_of rules u busy languages actss m guards l q,
  plain_parser rid rule_of ident sort first_of rules u busy languages actss m guards -> right_first rules first_of u -> no_conflict rid first_of rules u busy languages m guards ->
  In l languages -> (forall k, kernel m q k <-> k = language_start l) ->
  forall L matched renamed tree tree' input,
  parses_all rules rid ident L matched renamed (fun _ _ => False) (fun _ => False) [l] [tree] input [] ->
  parses_all rules rid ident L matched renamed (fun _ _ => False) (fun _ => False) [l] [tree'] input [] -> tree = tree'.
Proof.
  intros rid rule_of ident sort first_of rules u busy languages actss m guards l q PP RF NC LI KQ L matched renamed tree tree' input P P'.
  destruct (C58_complete_partial _ _ _ _ (fun x => x) _ _ _ _ _ _ _ _ _ _ PP RF NC LI KQ L matched renamed (ast L) ast_shift ast_reduce (Leaf None) tree input P) as [n X]. destruct (C58_complete_partial _ _ _ _ (fun x => x) _ _ _ _ _ _ _ _ _ _ PP RF NC LI KQ L matched renamed (ast L) ast_shift ast_reduce (Leaf None) tree' input P') as [n' X'].
  destruct (X (n + n')%nat) as (p & H & S); [lia|]. destruct (X' (n + n')%nat) as (p' & H' & S'); [lia|]. rewrite H in H'. injection H' as <-. rewrite S in S'. rewrite !value_ast in S'. injection S'. auto.
Qed.
Print Assumptions C58_one_tree_partial.

(** ** Checking the hypotheses for the example grammars *)
Fixpoint covers (f : item -> iset) (r : list item) (s : iset) : bool :=
  match r with
  | [] => in_items s IEmpty
  | x :: r => forallb (fun y => item_eqb y IEmpty || in_items s y) (f x) && (negb (in_items (f x) IEmpty) || covers f r s)
  end.
Definition first_check (nts : grammar_of) (us : list item) : bool :=
  let f := first_by (rules_of nts) 20 in
  forallb (fun i => in_items (f i) i && match i with INonterm n => forallb (fun r => covers f r (f i)) (rules_of nts n) | _ => true end) us.
Section FirstCheck.
  Context (nts : grammar_of) (us languages : list item) m guards actss (T : tool_result nts us languages m guards actss) (FC : first_check nts us = true).
  Notation f := (first_by (rules_of nts) 20).
  Lemma checked_self i : In i us -> In i (f i).
  Proof. intros I. unfold first_check in FC. rewrite forallb_forall in FC. specialize (FC i I). apply andb_true_iff in FC. apply in_items_spec, FC. Qed.
  Lemma checked_covers n r : In (INonterm n) us -> In r (rules_of nts n) -> covers f r (f (INonterm n)) = true.
  Proof. intros I R. unfold first_check in FC. rewrite forallb_forall in FC. specialize (FC _ I). apply andb_true_iff in FC. destruct FC as [_ X]. rewrite forallb_forall in X. apply X, R. Qed.
  Lemma tool_bodies i r : In i us -> has_body (rules_of nts) i r -> exists n, i = INonterm n /\ In r (rules_of nts n).
  Proof. intros I H. destruct (tr_plain _ _ _ _ _ _ T i I) as [[n ->]|[[s ->]|(p & g & ->)]]; cbn in H; [eauto|contradiction|contradiction]. Qed.
  Lemma tool_closed : closed (rules_of nts) (fun i => In i us).
  Proof. intros i r j I H J. destruct (tool_bodies i r I H) as (n & -> & R). eapply (bu_ordinary _ _ _ _ _ (tr_buildable _ _ _ _ _ _ T)); [exact I|constructor; exact R|exact J]. Qed.
  Lemma covers_empty r s : covers f r s = true -> (forall x, In x r -> In IEmpty (f x)) -> In IEmpty s.
  Proof. induction r as [|x r IH]; cbn [covers]; intros C N; [apply in_items_spec, C|]. apply andb_true_iff in C. destruct C as [_ C]. apply orb_true_iff in C. destruct C as [C|C]; [apply negb_true_iff in C; assert (X : in_items (f x) IEmpty = true) by (apply in_items_spec, N; left; reflexivity); congruence|]. apply IH; [exact C|intros y Y; apply N; right; exact Y]. Qed.
  Lemma covers_start pre y post s : covers f (pre ++ y :: post) s = true -> (forall x, In x pre -> In IEmpty (f x)) -> forall x, In x (f y) -> x <> IEmpty -> In x s.
  Proof.
    induction pre as [|z pre IH]; cbn [covers app]; intros C N x X NE; apply andb_true_iff in C; destruct C as [C1 C2].
    - rewrite forallb_forall in C1. specialize (C1 x X). apply orb_true_iff in C1. destruct C1 as [C1|C1]; [apply item_eqb_spec in C1; contradiction|apply in_items_spec, C1].
    - apply orb_true_iff in C2. destruct C2 as [C2|C2]; [apply negb_true_iff in C2; assert (Y : in_items (f z) IEmpty = true) by (apply in_items_spec, N; left; reflexivity); congruence|]. eapply IH; [exact C2|intros w W; apply N; right; exact W|exact X|exact NE].
  Qed.
  Scheme nullable_both := Minimality for nullable Sort Prop with nullables_both := Minimality for nullables Sort Prop.
  Lemma checked_nullable i : nullable (rules_of nts) i -> In i us -> In IEmpty (f i).
  Proof.
    apply (nullable_both (rules_of nts) (fun i => In i us -> In IEmpty (f i)) (fun r => (forall x, In x r -> In x us) -> forall x, In x r -> In IEmpty (f x))).
    - intros X. destruct (tr_plain _ _ _ _ _ _ T _ X) as [[n E]|[[s E]|(p & g & E)]]; discriminate E.
    - intros rs X. destruct (tr_plain _ _ _ _ _ _ T _ X) as [[n E]|[[s E]|(p & g & E)]]; discriminate E.
    - intros rs X. destruct (tr_plain _ _ _ _ _ _ T _ X) as [[n E]|[[s E]|(p & g & E)]]; discriminate E.
    - intros j r H _ IH X. assert (U : forall x, In x r -> In x us) by (intros x; eapply tool_closed; eassumption). destruct (tool_bodies j r X H) as (n & -> & R). eapply covers_empty; [apply checked_covers; [exact X|exact R]|apply IH, U].
    - intros _ x [].
    - intros j r _ I1 _ I2 U x [<-|X]; [apply I1, U; left; reflexivity|apply I2; [intros y Y; apply U; right; exact Y|exact X]].
  Qed.
  Lemma checked_starts i x : FirstSpec.starts (rules_of nts) i x -> In i us -> In x (f i) /\ x <> IEmpty.
  Proof.
    induction 1 as [s SY|i pre y post s H NN S IH]; intros X; [split; [apply checked_self, X|intros ->; destruct SY]|]. assert (U : forall x, In x (pre ++ y :: post) -> In x us) by (intros z; eapply tool_closed; eassumption).
    destruct (IH (U y (in_elt _ _ _))) as [I1 I2]. split; [|exact I2]. destruct (tool_bodies i _ X H) as (n & -> & R). eapply covers_start; [apply checked_covers; [exact X|exact R]| |exact I1|exact I2].
    intros z Z. apply checked_nullable; [|apply U, in_or_app; left; exact Z]. clear -NN Z. induction NN; [destruct Z|]. destruct Z as [<-|Z]; auto.
  Qed.
  Lemma checked_first : right_first (rules_of nts) f (fun i => In i us).
  Proof.
    assert (E : forall k rs, ~ In (IEbnf k rs) us) by (intros k rs X; destruct (tr_plain _ _ _ _ _ _ T _ X) as [[n E]|[[s E]|(p & g & E)]]; discriminate E).
    split; [apply tool_closed|intros rs X; exfalso; eapply E, X|]. intros i I x. split.
    - intros X. pose proof (checked_self i I) as SI. unfold first_by in *. destruct (first (rules_of nts) 20 i []) as [[c' s]|] eqn:F; [|destruct SI]. eapply (C25_sound_partial (rules_of nts) (fun i => In i us)); [apply tool_closed|intros k rs r U; exfalso; eapply E, U|constructor|exact I|exact F|exact X].
    - intros [[-> N]|S]; [apply checked_nullable; assumption|apply checked_starts; assumption].
  Qed.
End FirstCheck.
(** No state accepts and reduces on one item. *)
Definition accept_check (actss : list action_set) : bool :=
  forallb (fun acts => forallb (fun a => forallb (fun b => match a_type a, a_type b with Accept, Reduce => negb (item_eqb (a_item a) (a_item b)) | _, _ => true end) acts) acts) actss.
Lemma checked_accept rid rule_of ident sort first_of rules u busy languages actss m guards : plain_parser rid rule_of ident sort first_of rules u busy languages actss m guards -> accept_check actss = true ->
  forall q a b, lalr_action rules first_of languages (kernel m) (step m) q a -> lalr_action rules first_of languages (kernel m) (step m) q b -> a_type a = Accept -> a_type b = Reduce -> a_item a <> a_item b.
Proof.
  intros PP AC q a b A1 B1 TA TB E.
  assert (QK : exists k, kernel m q k). { destruct A1 as [x t S X|x t S N1 N2|k x CO IX NT|k x CO IX TR|p l n s GX _ _]; cbn in TA; try discriminate TA. destruct CO as (C & _). apply CompleteProofs.closure_kernel in C. exact C. }
  destruct QK as [k K]. pose proof (plain_range _ _ _ _ _ _ _ _ _ _ _ _ PP q k K) as R. destruct (nth_error actss (Z.to_nat q)) as [acts|] eqn:N; [|apply nth_error_None in N; lia].
  assert (EX := plain_actions_exact _ _ _ _ _ _ _ _ _ _ _ _ PP _ _ N). rewrite Z2Nat.id in EX by lia. apply EX in A1. apply EX in B1. unfold accept_check in AC. rewrite forallb_forall in AC. apply nth_error_In in N. specialize (AC _ N). rewrite forallb_forall in AC. specialize (AC _ A1). rewrite forallb_forall in AC. specialize (AC _ B1). rewrite TA, TB in AC. apply negb_true_iff in AC. apply item_eqb_spec in E. congruence.
Qed.
Lemma tool_plain_parser nts us languages m guards actss : tool nts us languages = Some (m, guards, actss) -> (forall p g, ~ In (IGuard p g) us) ->
  plain_parser rule_number (rule_in (all_rules nts us languages)) item_number (insertion_sort entry_ltb) (first_by (rules_of nts) 20) (rules_of nts) (fun i => In i us) one_object languages actss m guards.
Proof.
  intros E NG. pose proof (tool_ok _ _ _ _ _ _ E) as T. split; try apply T; [|exact NG|split; apply T| |].
  - split; intros X; destruct (tr_plain _ _ _ _ _ _ T _ X) as [[n Q]|[[s Q]|(p & g & Q)]]; discriminate Q.
  - intros i j X. apply item_number_injective, X.
  - apply entry_sorts.
Qed.

(** The hypotheses hold for 0 -> 0 + 1 | 1, 1 -> x | ( 0 ). *)
Example C58_complete_nontrivial : exists m guards actss,
  plain_parser rule_number (rule_in (all_rules nts_expr items_expr [INonterm 0])) item_number (insertion_sort entry_ltb) (first_by (rules_of nts_expr) 20) (rules_of nts_expr) (fun i => In i items_expr) one_object [INonterm 0] actss m guards /\
  right_first (rules_of nts_expr) (first_by (rules_of nts_expr) 20) (fun i => In i items_expr) /\
  no_conflict rule_number (first_by (rules_of nts_expr) 20) (rules_of nts_expr) (fun i => In i items_expr) one_object [INonterm 0] m guards /\
  (forall k, kernel m 0 k <-> k = language_start (INonterm 0)) /\
  exists tree, parses_all (rules_of nts_expr) rule_number item_number lex fst lex_renamed (fun _ _ => False) (fun _ => False) [INonterm 0] [tree] (lexemes [4; 5; 6; 4; 5; 4; 7]) [].
Proof.
  destruct (tool nts_expr items_expr [INonterm 0]) as [[[m g] a]|] eqn:E; [|vm_compute in E; discriminate E]. assert (PP := tool_plain_parser _ _ _ _ _ _ E). assert (T := tool_ok _ _ _ _ _ _ E). vm_compute in E. injection E as <- <- <-.
  assert (NG : forall p g, ~ In (IGuard p g) items_expr) by (intros p g X; cbn in X; intuition discriminate). specialize (PP NG).
  eexists. eexists. eexists. split; [exact PP|]. split; [eapply checked_first; [exact T|vm_compute; reflexivity]|]. split; [|split].
  - split; [|eapply checked_accept; [exact PP|vm_compute; reflexivity]]. exists no_sources, 50%nat, ([], 0%nat). eexists. split; [constructor; constructor|vm_compute; reflexivity].
  - intros k. split; [intros (s & S & K); vm_compute in S; injection S as <-; destruct K as [<-|[]]; reflexivity|intros ->; eexists; split; [vm_compute; reflexivity|left; reflexivity]].
  - assert (X : exists rs, rightmost (rules_of nts_expr) rs [INonterm 0] (map (fun x : lex => ITerm (fst x)) (lexemes [4; 5; 6; 4; 5; 4; 7]))).
    { destruct C37_nontrivial as (m & gs & actss & p & _ & CO & AP & KQ & TA & _).
      destruct (C37_plain_partial _ _ _ _ _ _ _ _ _ _ _ _ _ _ _ (co_buildable _ _ _ _ _ _ _ _ _ _ _ _ _ _ _ _ CO) ltac:(cbn; intuition discriminate) ltac:(cbn; intuition discriminate) NG (co_built _ _ _ _ _ _ _ _ _ _ _ _ _ _ _ _ CO) AP item_number_injective entry_sorts (co_fits _ _ _ _ _ _ _ _ _ _ _ _ _ _ _ _ CO) (or_introl eq_refl) KQ _ _ _ _ _ _ _ _ _ _ TA) as (rs & R & _). exists rs. exact R. }
    destruct X as [rs R]. destruct (derived_parses _ rule_number item_number lex fst lex_renamed _ _ _ R _ eq_refl) as [ts P]. pose proof (all_length _ _ _ _ _ _ _ _ _ _ _ _ P) as LN. destruct ts as [|tree [|? ?]]; try discriminate LN. exists tree. exact P.
Qed.
(** It fails when a FIRST set is wrong (see C25_left_recursion_refuted).  In the grammar
    0 -> 1 2 t6, 1 -> t4, 2 -> 2 t5 | (nothing), FIRST(2) misses t5.  No conflict is reported, the sentence
    t4 t5 t6 has a derivation, and the parser rejects it. *)
Definition nts_lost : grammar_of := [(0, [[INonterm 1; INonterm 2; ITerm 6]]); (1, [[ITerm 4]]); (2, [[INonterm 2; ITerm 5]; []])].
Definition items_lost : list item := [INonterm 0; INonterm 1; INonterm 2; ITerm 4; ITerm 5; ITerm 6].
Theorem C58_first_refuted : exists m guards actss p,
  plain_parser rule_number (rule_in (all_rules nts_lost items_lost [INonterm 0])) item_number (insertion_sort entry_ltb) (first_by (rules_of nts_lost) 20) (rules_of nts_lost) (fun i => In i items_lost) one_object [INonterm 0] actss m guards /\
  no_conflict rule_number (first_by (rules_of nts_lost) 20) (rules_of nts_lost) (fun i => In i items_lost) one_object [INonterm 0] m guards /\
  (forall k, kernel m 0 k <-> k = language_start (INonterm 0)) /\
  (exists rs, rightmost (rules_of nts_lost) rs [INonterm 0] (map (fun x : lex => ITerm (fst x)) (lexemes [4; 5; 6]))) /\
  tool_ast (tool_tables nts_lost items_lost [INonterm 0] actss []) 40 0 [4; 5; 6] = Done (false, p).
Proof.
  destruct (tool nts_lost items_lost [INonterm 0]) as [[[m g] a]|] eqn:E; [|vm_compute in E; discriminate E]. assert (PP := tool_plain_parser _ _ _ _ _ _ E). vm_compute in E. injection E as <- <- <-.
  assert (NG : forall p g, ~ In (IGuard p g) items_lost) by (intros p g X; cbn in X; intuition discriminate). specialize (PP NG).
  eexists. eexists. eexists. eexists. split; [exact PP|]. split; [|split; [|split]].
  - split; [|eapply checked_accept; [exact PP|vm_compute; reflexivity]]. exists no_sources, 50%nat, ([], 0%nat). eexists. split; [constructor; constructor|vm_compute; reflexivity].
  - intros k. split; [intros (s & S & K); vm_compute in S; injection S as <-; destruct K as [<-|[]]; reflexivity|intros ->; eexists; split; [vm_compute; reflexivity|left; reflexivity]].
  - eexists. cbn.
    eapply (rightmost_step _ (mkRule (INonterm 0) [INonterm 1; INonterm 2; ITerm 6]) _ [] []); [cbn; constructor; left; reflexivity|constructor|cbn].
    eapply (rightmost_step _ (mkRule (INonterm 2) [INonterm 2; ITerm 5]) _ [INonterm 1] [ITerm 6]); [cbn; constructor; left; reflexivity|repeat constructor; eexists; reflexivity|cbn].
    eapply (rightmost_step _ (mkRule (INonterm 2) []) _ [INonterm 1] [ITerm 5; ITerm 6]); [cbn; constructor; right; left; reflexivity|repeat constructor; eexists; reflexivity|cbn].
    eapply (rightmost_step _ (mkRule (INonterm 1) [ITerm 4]) _ [] [ITerm 5; ITerm 6]); [cbn; constructor; left; reflexivity|repeat constructor; eexists; reflexivity|cbn]. constructor.
  - vm_compute. reflexivity.
Qed.
Print Assumptions C58_first_refuted.
