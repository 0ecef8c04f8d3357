(** Proofs about the stage that makes a parser from a grammar. *)
From Verif Require Import Base OrdMap GrammarModel GrammarProofs FirstModel FirstSpec FirstProofs FirstProps FollowProofs FollowProps LrItemModel LrItemProofs ClosureModel ClosureSpec ClosureProofs ClosureProps MachineModel BuilderModel BuilderSpec BuilderProofs BuilderProps BuilderFuelProofs ActionModel ActionSpec ActionProofs ActionProps RewriteModel RewriteSpec RewriteProps ConflictModel ConflictSpec ConflictProps TableModel TableProofs TableProps RunModel RunSpec RunProofs RunTableProofs RunProps CompleteProofs CompleteProps TerminateProps IgnoreTableProofs StageModel StageSpec.
Local Open Scope Z_scope.

Section Workable.
  Context (rid : rule -> Z) (RI : injective rid) (first_of : item -> iset) (rules : Z -> list (list item)) (us : list item) (rank : item -> nat) (languages : list item).
  Context (WK : workable rules us rank languages) (AN : answered rules (fun i => In i us) first_of).
  Notation u := (fun i => In i us).
  Lemma work_first i : In i us -> first_set rules i (first_of i).
  Proof. intros U. destruct AN as [_ H]. destruct (H i U) as (c & fuel & c' & E & F). destruct WK. exact (C25_exact_partial rules u rank c fuel i c' (first_of i) wk_closed wk_plain wk_repeat wk_ranked wk_last E U F). Qed.
  Lemma work_starts i x : FirstSpec.starts rules i x -> In i us -> In x us.
  Proof. induction 1 as [s _|i pre y post s B _ _ IH]; intros U; [exact U|]. apply IH. eapply (wk_closed _ _ _ _ WK); [exact U|exact B|apply in_elt]. Qed.
  Lemma work_expands i r : expands rules i r -> In i us -> forall j, In j r -> In j us.
  Proof.
    pose proof (wk_closed _ _ _ _ WK) as CL. assert (N : forall k rs, k <> Alternative -> In (IEbnf k rs) us -> forall j, In j (nth 0 rs []) -> In j us).
    { intros k [|r1 rs] K U j J; [destruct J|]. apply (CL (IEbnf k (r1 :: rs)) r1 j U); [|exact J]. destruct k; try congruence; exists rs; reflexivity. }
    intros E. induction E as [n r0 I|k rs K|k rs K|k rs K|rs r0 I _|rs rs' r0 I _ IH]; intros U j J.
    - exact (CL (INonterm n) r0 j U I J).
    - destruct J.
    - apply (N k rs); [destruct K; congruence|exact U|exact J].
    - destruct J as [<-|J]; [exact U|]. apply (N k rs); [destruct K; congruence|exact U|exact J].
    - exact (CL (IEbnf Alternative rs) r0 j U I J).
    - apply IH; [|exact J]. apply (CL (IEbnf Alternative rs) [IEbnf Alternative rs'] (IEbnf Alternative rs') U I). left. reflexivity.
  Qed.
  Lemma work_not i : In i us -> i <> IEmpty /\ i <> IEoi /\ i <> IEog /\ forall p g, i <> IGuard p g.
  Proof. intros U. apply (wk_items _ _ _ _ WK) in U. destruct i; try contradiction; repeat split; discriminate. Qed.
  Lemma work_buildable : buildable rid first_of rules u languages.
  Proof.
    split; [exact RI|exact (proj1 AN)| | |exact (wk_languages _ _ _ _ WK)].
    - intros i U. split; [apply work_not, U|]. split; [|intros r j E J; exact (work_expands i r E U j J)]. intros I. apply (work_first i U) in I. destruct I as [[X _]|I]; [discriminate X|]. apply work_starts in I; [|exact U]. apply work_not in I. tauto.
    - intros p l U. apply work_not in U. destruct U as (_ & _ & _ & U). destruct (U p l eq_refl).
  Qed.
  Lemma work_no_guards i p l : In i us -> In (IGuard p l) (first_of i) -> In (IGuard p l) us.
  Proof. intros U I. apply (work_first i U) in I. destruct I as [[X _]|I]; [discriminate X|]. exact (work_starts _ _ I U). Qed.
  Lemma work_guard_rank p l p' l' : In (IGuard p l) us -> begins first_of l (IGuard p' l') -> (rank (IGuard p' l') < rank (IGuard p l))%nat.
  Proof. intros U. apply work_not in U. destruct U as (_ & _ & _ & U). destruct (U p l eq_refl). Qed.
  Lemma work_right : right_first rules first_of u.
  Proof. split; [apply WK|apply WK|exact work_first]. Qed.
End Workable.

(** The rewriters when there are no precedences, weak symbols and attributes: only the ignored symbols matter *)
Lemma no_strong acts : has_strong no_weak acts = false.
Proof. unfold has_strong. induction acts as [|a acts IH]; [reflexivity|]. cbn [existsb]. rewrite IH. cbn. rewrite andb_false_r. reflexivity. Qed.
Lemma weak_none q acts : weak_rewrite no_weak q acts = acts.
Proof. unfold weak_rewrite. rewrite no_strong. reflexivity. Qed.
Lemma attribute_none closure q acts : attribute_rewrite closure (fun _ _ => NotSpecified) q acts = acts.
Proof.
  unfold attribute_rewrite. assert (R : forall i, resolution closure (fun _ _ => NotSpecified) q i = NotSpecified).
  { intros i. unfold resolution. induction (closure q) as [|k l IH]; [reflexivity|]. cbn [fold_left]. destruct (after_dot k) as [|j ?]; [exact IH|]. destruct (item_eqb j i); exact IH. }
  assert (A : forall g acts, attribute_resolve closure (fun _ _ => NotSpecified) q acts g = acts).
  { intros [i l] a. unfold attribute_resolve. rewrite R. destruct (Nat.ltb _ _); [reflexivity|]. destruct (Nat.eqb _ _); [reflexivity|]. destruct (Nat.eqb _ _); reflexivity. }
  assert (G : forall gs a, fold_left (attribute_resolve closure (fun _ _ => NotSpecified) q) gs a = a) by (induction gs as [|g gs IH]; intros a; [reflexivity|]; cbn [fold_left]; rewrite A; apply IH).
  apply G.
Qed.
Definition plain_rewriters (closures : machine -> Z -> list lr0) (ignored : list Z) (m : machine) : list rewriter :=
  [weak_rewrite no_weak; attribute_rewrite (closures m) (fun _ _ => NotSpecified); ignored_rewrite (ignoring (map ITerm ignored))].
Lemma ignoring_map ignored : forall s, fold_left (fun s i => ignored_add (ITerm i) s) ignored s = fold_left (fun s i => ignored_add i s) (map ITerm ignored) s.
Proof. induction ignored as [|i l IH]; intros s; [reflexivity|]. cbn [fold_left map]. apply IH. Qed.
Lemma stage_plain o closures lr1 ignored m : o_lr1 o = false -> stage_rewriters o (fun _ => []) no_weak closures (fun _ _ => NotSpecified) lr1 ignored m = plain_rewriters closures ignored m.
Proof. intros L. unfold stage_rewriters, plain_rewriters, ignoring. rewrite L, ignoring_map. reflexivity. Qed.
Lemma plain_fold closures ignored m q acts : fold_left (fun s w => w q s) (plain_rewriters closures ignored m) acts = ignored_rewrite (ignoring (map ITerm ignored)) q acts.
Proof. cbn [plain_rewriters fold_left]. rewrite weak_none, attribute_none. reflexivity. Qed.
Lemma plain_resolving closures ignored m w : In w (plain_rewriters closures ignored m) -> resolving w.
Proof.
  intros [<-|[<-|[<-|[]]]]; [|apply attribute_resolving|apply ignored_resolving]. intros q acts S. rewrite weak_none. split; [exact S|auto].
Qed.
Lemma plain_orderly closures ignored m : Forall orderly (plain_rewriters closures ignored m).
Proof. apply Forall_forall. intros w I q acts S. apply (plain_resolving closures ignored m w I q acts S). Qed.

Section Made.
  Context (rid : rule -> Z) (RI : injective rid) (first_of : item -> iset) (rules : Z -> list (list item)) (us : list item) (rank : item -> nat) (languages : list item).
  Context (WK : workable rules us rank languages) (AN : answered rules (fun i => In i us) first_of).
  Context (busy : nat -> list item -> item -> bool) (width : nat) (BB : forall n stack i, (width <= count_occ item_dec stack i)%nat -> busy n stack i = true).
  Context (sources : Z -> Z -> item -> list lid) (can_clash : rule -> nat -> bool) (closures : machine -> Z -> list lr0) (ignored : list Z).
  Notation u := (fun i => In i us).
  Notation ws := (plain_rewriters closures ignored).
  Notation cok c := (cache_ok rid first_of rules u (fst c)).
  Let BU := work_buildable rid RI first_of rules us rank languages WK AN.

  Lemma start_calls : earlier_calls rid first_of rules u busy ([], 0%nat).
  Proof. constructor. Qed.
  Lemma calls_ok c : any_calls rid first_of rules u busy c -> cok c.
  Proof. apply any_calls_ok; apply BU. Qed.
  Lemma start_any : any_calls rid first_of rules u busy ([], 0%nat).
  Proof. apply any_closures, start_calls. Qed.

  Lemma state_ends m guards : built rid first_of rules u busy languages m guards -> forall qs, (forall q, In q qs -> is_state m q) ->
    exists fuel0, forall fuel c, (fuel0 <= fuel)%nat -> cok c -> all_actions rid first_of rules busy fuel m guards (ws m) qs c <> None.
  Proof.
    intros B. induction qs as [|q qs IH]; intros Q; [exists O; discriminate|]. destruct IH as [f1 H1]; [intros; apply Q; right; assumption|].
    destruct (plain_ends rid first_of rules us busy width languages m guards rank q BU B BB (work_no_guards first_of rules us rank languages WK AN) (work_guard_rank first_of rules us rank languages WK) (Q q (or_introl eq_refl))) as [f2 H2].
    exists (Nat.max f1 f2). intros fuel c F CO. cbn [all_actions]. unfold actions_for_state. specialize (H2 fuel c). destruct (plain_actions rid first_of rules busy fuel m guards q c) as [[acts c1]|] eqn:P; [|destruct H2; [lia|exact CO|reflexivity]].
    apply (plain_exact _ _ _ _ _ _ _ _ BU B) in P; [|exact CO]. specialize (H1 fuel c1). destruct (all_actions rid first_of rules busy fuel m guards (ws m) qs c1) as [[? ?]|]; [discriminate|]. destruct H1; [lia|apply P|reflexivity].
  Qed.
  (** The parser that is built does not depend on the fuel. *)
  Lemma make_ends o : exists fuel0, forall fuel, (fuel0 <= fuel)%nat -> make_parser rid first_of rules busy sources can_clash o ws fuel languages <> None.
  Proof.
    destruct (C30_ends_partial rid first_of rules us busy width languages BU BB) as [f0 H0]. specialize (H0 f0 f0 ([], 0%nat) (le_n _) (le_n _) start_calls).
    destruct (complete_parser rid first_of rules busy f0 f0 (fold_left (fun m l => fst (add_initial_state rid l m)) languages new_machine) [] ([], 0%nat)) as [[[[m g] p] c]|] eqn:E; [clear H0|contradiction].
    assert (B : built rid first_of rules u busy languages m g) by (exists f0, f0, ([], 0%nat), p, c; split; [apply start_calls|exact E]).
    assert (AC : any_calls rid first_of rules u busy c) by (eapply any_parser; [exact start_any|apply BU|exact E]).
    destruct (C36_ends_partial rid first_of rules us busy width sources languages m g rank (ws m) BU B BB (work_no_guards first_of rules us rank languages WK AN) (work_guard_rank first_of rules us rank languages WK)) as [f1 H1].
    { intros w q acts I S. apply (plain_resolving closures ignored m w I q acts S). }
    destruct (state_ends m g B (state_ids m)) as [f2 H2]; [intros q; apply state_ids_state|].
    exists (Nat.max f0 (Nat.max f1 f2)). intros fuel F. unfold make_parser. rewrite (complete_parser_more rid first_of rules busy f0 fuel f0 fuel _ _ _ _ ltac:(lia) ltac:(lia) E).
    specialize (H1 fuel c ltac:(lia) AC). destruct (find_conflicts rid first_of rules busy sources fuel m g (ws m) c) as [[found c1]|] eqn:FC; [|contradiction].
    apply (conflicts_exact _ _ _ _ _ sources _ _ _ BU B _ _ (plain_orderly closures ignored m)) in FC; [|apply state_ids_once|apply calls_ok, AC]. destruct FC as [CO _].
    specialize (H2 fuel c1 ltac:(lia) CO). destruct (all_actions rid first_of rules busy fuel m g (ws m) (state_ids m) c1) as [[actss c2]|]; [discriminate|contradiction].
  Qed.
  (** The actions of a state, from whatever the cache holds *)
  Lemma plain_again m guards q acts : built rid first_of rules u busy languages m guards -> is_state m q -> ssorted action_ltb acts -> (forall a, In a acts <-> lalr_action rules first_of languages (kernel m) (step m) q a) ->
    exists fuel c', plain_actions rid first_of rules busy fuel m guards q ([], 0%nat) = Some (acts, c').
  Proof.
    intros B Q SA EA. destruct (plain_ends rid first_of rules us busy width languages m guards rank q BU B BB (work_no_guards first_of rules us rank languages WK AN) (work_guard_rank first_of rules us rank languages WK) Q) as [f H].
    specialize (H f ([], 0%nat) (le_n _) (calls_ok _ start_any)). destruct (plain_actions rid first_of rules busy f m guards q ([], 0%nat)) as [[acts' c']|] eqn:P; [|contradiction]. exists f, c'. rewrite P. do 2 f_equal.
    apply (plain_exact _ _ _ _ _ _ _ _ BU B) in P; [|apply calls_ok, start_any]. destruct P as (_ & S' & E'). apply (ssorted_ext _ action_strict); [exact S'|exact SA|]. intros a. rewrite E', EA. reflexivity.
  Qed.
  Lemma all_actions_plain m guards fuel : built rid first_of rules u busy languages m guards -> forall n a c actss c', cok c -> (forall q, In q (map Z.of_nat (seq a n)) -> is_state m q) ->
    all_actions rid first_of rules busy fuel m guards (ws m) (map Z.of_nat (seq a n)) c = Some (actss, c') ->
    exists plains, length plains = n /\ actss = rewrite_states (ignored_rewrite (ignoring (map ITerm ignored))) (Z.of_nat a) plains /\
      forall j acts, nth_error plains j = Some acts -> exists fuel c1, plain_actions rid first_of rules busy fuel m guards (Z.of_nat (a + j)) ([], 0%nat) = Some (acts, c1).
  Proof.
    intros B. induction n as [|n IH]; intros a c actss c' CO Q; cbn [seq map all_actions].
    - intros E. injection E as <- <-. exists []. split; [reflexivity|]. split; [reflexivity|]. intros [|j] acts X; discriminate X.
    - unfold actions_for_state. destruct (plain_actions rid first_of rules busy fuel m guards (Z.of_nat a) c) as [[acts c1]|] eqn:P; [|discriminate]. rewrite plain_fold.
      destruct (all_actions rid first_of rules busy fuel m guards (ws m) (map Z.of_nat (seq (S a) n)) c1) as [[more c2]|] eqn:R; [|discriminate]. intros E. injection E as <- <-.
      apply (plain_exact _ _ _ _ _ _ _ _ BU B) in P; [|exact CO]. destruct P as (CO1 & SA & EA). destruct (IH (S a) c1 more c2 CO1) as (plains & L & EM & AL); [intros q I; apply Q; right; exact I|exact R|].
      exists (acts :: plains). split; [cbn; congruence|]. split; [cbn [rewrite_states]; rewrite EM; replace (Z.of_nat (S a)) with (Z.of_nat a + 1) by lia; reflexivity|].
      intros [|j] acts' X; cbn [nth_error] in X.
      + injection X as <-. rewrite Nat.add_0_r. apply (plain_again m guards _ acts B (Q _ (or_introl eq_refl)) SA EA).
      + replace (a + S j)%nat with (S a + j)%nat by lia. apply AL, X.
  Qed.
  Lemma initial_facts ls : (forall l, In l ls -> In l languages) -> forall m guards, binv rid rules u languages m guards ->
    let m' := fold_left (fun m l => fst (add_initial_state rid l m)) ls m in
    binv rid rules u languages m' guards /\ extends m m' /\ forall n l, nth_error ls n = Some l -> exists q, nth_error (initial_states rid ls m) n = Some q /\ kern m' q [language_start l].
  Proof.
    induction ls as [|l ls IH]; intros LS m guards I m'; [split; [exact I|]; split; [apply extends_refl|intros [|n] x X; discriminate X]|]. unfold m'. cbn [fold_left initial_states]. destruct (add_initial_state rid l m) as [m1 n1] eqn:E.
    apply (add_initial_inv rid RI rules u busy languages (wk_languages _ _ _ _ WK) l m m1 n1 guards I) in E; [|apply LS; left; reflexivity]. destruct E as (I1 & EX1 & K1). cbn [fst].
    destruct (IH (fun l0 X => LS l0 (or_intror X)) m1 guards I1) as (I2 & EX2 & K2). split; [exact I2|]. split; [eapply extends_trans; eassumption|].
    intros [|n] x X; cbn [nth_error] in X; [injection X as <-; exists n1; split; [reflexivity|apply EX2, K1]|]. destruct (K2 n x X) as (q & Q1 & Q2). exists q. split; [exact Q1|exact Q2].
  Qed.
  Lemma made_facts o fuel ms d : make_parser rid first_of rules busy sources can_clash o ws fuel languages = Some (ms, d) ->
    built rid first_of rules u busy languages (d_machine d) (d_guards d) /\
    (exists plains, all_plain rid first_of rules u busy (d_machine d) (d_guards d) plains /\ d_actions d = rewrite_states (ignored_rewrite (ignoring (map ITerm ignored))) 0 plains) /\
    (forall q x, In (q, x) (map (fun f => (f_state f, f_token f)) (d_found d)) <-> is_state (d_machine d) q /\ clash (rewritten_actions first_of rules languages (d_machine d) (ws (d_machine d)) q) x) /\
    (forall n l, nth_error languages n = Some l -> exists q, nth_error (d_initial d) n = Some q /\ forall k, kernel (d_machine d) q k <-> k = language_start l) /\
    ms = flat_map (conflict_messages o) (d_found d) ++ all_guard_messages rid can_clash (d_machine d) 0 (d_actions d).
  Proof.
    unfold make_parser. destruct (complete_parser rid first_of rules busy fuel fuel _ [] ([], 0%nat)) as [[[[m g] p] c]|] eqn:E; [|discriminate].
    assert (B : built rid first_of rules u busy languages m g) by (exists fuel, fuel, ([], 0%nat), p, c; split; [apply start_calls|exact E]).
    assert (AC : any_calls rid first_of rules u busy c) by (eapply any_parser; [exact start_any|apply BU|exact E]).
    destruct (find_conflicts rid first_of rules busy sources fuel m g (ws m) c) as [[found c1]|] eqn:FC; [|discriminate].
    destruct (all_actions rid first_of rules busy fuel m g (ws m) (state_ids m) c1) as [[actss c2]|] eqn:AA; [|discriminate]. intros X. injection X as <- <-. cbn [d_machine d_guards d_found d_actions d_initial].
    pose proof (C36_resolved_partial _ _ _ _ _ sources _ _ _ _ _ _ _ _ BU B AC (plain_resolving closures ignored m) FC) as CL.
    apply (conflicts_exact _ _ _ _ _ sources _ _ _ BU B _ _ (plain_orderly closures ignored m)) in FC; [|apply state_ids_once|apply calls_ok, AC]. destruct FC as [CO _].
    split; [exact B|]. split.
    { unfold state_ids in AA. apply (all_actions_plain m g fuel B) in AA; [|exact CO|intros q I; apply state_ids_state, I]. destruct AA as (plains & L & EQ & AL). exists plains. split; [|exact EQ]. split; [rewrite L; reflexivity|].
      intros q acts X. destruct (AL q acts X) as (f & c3 & P). exists f, ([], 0%nat), c3. split; [exact start_any|exact P]. }
    split; [exact CL|]. split; [|reflexivity].
    intros n l X. destruct (initial_facts languages (fun l X => X) new_machine [] (new_machine_inv rid rules u languages)) as (_ & _ & KK). destruct (KK n l X) as (q & Q1 & Q2). exists q. split; [exact Q1|].
    destruct (built_facts _ _ _ _ _ _ _ _ BU B) as (m0 & _ & EX & _ & KE & _). assert (K : kern m q [language_start l]) by (apply KE, EX, Q2). intros k. destruct (kern_with_id m q _ K) as (s & S1 & S2 & _). unfold kernel. split.
    - intros (s' & S' & I). rewrite S1 in S'. injection S' as <-. rewrite S2 in I. destruct I as [<-|[]]. reflexivity.
    - intros ->. exists s. split; [exact S1|]. rewrite S2. left. reflexivity.
  Qed.
  Section Decides.
    Context (rule_of : Z -> rule) (ident : item -> Z) (sort : list entry -> list entry) (sort_weak : list (Z * Z) -> list (Z * Z)) (SO : sorts entry_ltb sort) (IN : forall i j, ident i = ident j -> i = j).
    Context (IG : forall s, In s ignored -> ~ In (ITerm s) us) (m : machine) (guards : guard_states) (plains : list action_set).
    Context (B : built rid first_of rules u busy languages m guards) (AP : all_plain rid first_of rules u busy m guards plains).
    Notation has := (lalr_action rules first_of languages (kernel m) (step m)).
    Let actss := rewrite_states (ignored_rewrite (ignoring (map ITerm ignored))) 0 plains.
    Lemma looks_plain q k x : lalr_look rules first_of languages Z (kernel m) (step m) q k x -> x = IEoi \/ x = IEog \/ In x us.
    Proof.
      induction 1 as [q l I K|q p l K|q k y rest r x C A E BG|q k y rest r x LK IH A E S|q k y rest q' x LK IH A S]; auto. right. right. destruct BG as (p & y' & rest' & -> & _ & F & NE).
      assert (U : In y' us) by (apply (built_closure_u _ _ _ _ _ _ _ _ BU B _ _ C); rewrite A; right; apply in_elt). apply (work_first first_of rules us rank languages WK AN _ U) in F. destruct F as [[X _]|F]; [contradiction|].
      exact (work_starts rules us rank languages WK _ _ F U).
    Qed.
    Lemma step_in q x t : step m q x t -> In x us.
    Proof. intros S. destruct (goto_some _ _ _ _ _ _ _ _ BU B q x t S) as (k & rest & C & A). apply (built_closure_u _ _ _ _ _ _ _ _ BU B _ _ C). rewrite A. left. reflexivity. Qed.
    Lemma has_plain q a : has q a -> (a_item a = IEoi \/ a_item a = IEog \/ In (a_item a) us) /\ a_type a <> Guard /\ a_type a <> WeakReduce.
    Proof.
      assert (NG : forall p l, ~ In (IGuard p l) us) by (intros p l U; apply (work_not rules us rank languages WK) in U; destruct U as (_ & _ & _ & U); destruct (U p l eq_refl)).
      intros H. destruct H as [x t S _|x t S _ _|k x (_ & _ & K) _ _|k x (_ & _ & K) _ _|p l n s [[t S]|[k (_ & _ & K)]] _ _]; cbn; (split; [|try (split; discriminate)]).
      - right. right. exact (step_in _ _ _ S).
      - right. right. exact (step_in _ _ _ S).
      - exact (looks_plain _ _ _ K).
      - exact (looks_plain _ _ _ K).
      - destruct (NG p l (step_in _ _ _ S)).
      - destruct (NG p l (step_in _ _ _ S)).
      - apply looks_plain in K. destruct K as [K|[K|K]]; [discriminate K|discriminate K|destruct (NG _ _ K)].
      - apply looks_plain in K. destruct K as [K|[K|K]]; [discriminate K|discriminate K|destruct (NG _ _ K)].
    Qed.
    Lemma plains_exact q acts : nth_error plains q = Some acts -> ssorted action_ltb acts /\ forall a, In a acts <-> has (Z.of_nat q) a.
    Proof. intros X. destruct AP as [_ H]. destruct (H q acts X) as (f & c & c' & AC & P). apply (plain_exact _ _ _ _ _ _ _ _ BU B) in P; [apply P|apply calls_ok, AC]. Qed.
    Lemma plains_kept acts : In acts plains -> ssorted action_ltb acts /\ forall a, In a acts -> kept_action ignored a = true.
    Proof.
      intros I. apply In_nth_error in I. destruct I as [q X]. destruct (plains_exact q acts X) as [S E]. split; [exact S|]. intros a A. apply E, has_plain in A. destruct A as [A _]. apply kept_in. intros J. apply in_map_iff in J. destruct J as (s & E1 & J). rewrite <- E1 in A.
      destruct A as [A|[A|A]]; [discriminate A|discriminate A|]. exact (IG s J A).
    Qed.
    Lemma plains_sub q acts a : nth_error plains q = Some acts -> In a acts -> exists acts', nth_error actss q = Some acts' /\ In a acts'.
    Proof.
      intros X A. exists (ignored_rewrite (ignoring (map ITerm ignored)) (Z.of_nat q) acts). split; [apply rewrite_nth; exists acts; split; [exact X|f_equal; lia]|]. apply C32_others; [|exact A]. apply kept_in. apply (plains_kept acts); [eapply nth_error_In, X|exact A].
    Qed.
    Lemma plains_sub_in acts a : In acts plains -> In a acts -> exists acts', In acts' actss /\ In a acts'.
    Proof. intros I A. apply In_nth_error in I. destruct I as [q X]. destruct (plains_sub q acts a X A) as (acts' & Y & Z0). exists acts'. split; [eapply nth_error_In, Y|exact Z0]. Qed.
    Lemma plains_fit : fits rid rule_of actss -> fits rid rule_of plains.
    Proof.
      intros [F1 (rs & F2 & F2') F3]. split.
      - intros acts a I A. destruct (plains_sub_in acts a I A) as (acts' & I' & A'). apply (F1 acts' a I' A').
      - exists rs. split; [exact F2|]. intros acts a I A. destruct (plains_sub_in acts a I A) as (acts' & I' & A'). apply (F2' acts' a I' A').
      - intros acts a I A. destruct (plains_sub_in acts a I A) as (acts' & I' & A'). apply (F3 acts' a I' A').
    Qed.
    Lemma has_state q a : has q a -> a_type a = Accept \/ a_type a = Reduce -> is_state m q.
    Proof.
      intros H T. assert (C : exists k, closure_item rules (kernel m q) k) by (destruct H as [x t S _|x t S _ _|k x (C & _ & K) _ _|k x (C & _ & K) _ _|p l n s _ _ _]; cbn in T; try (destruct T; discriminate); eauto).
      destruct C as [k C]. induction C as [k (s & S & _)|]; [unfold is_state; congruence|assumption].
    Qed.
    Lemma plains_range q : is_state m q -> exists acts, nth_error plains (Z.to_nat q) = Some acts /\ 0 <= q.
    Proof.
      intros Q. apply (C54_states_partial _ _ _ _ _ _ _ _ BU B) in Q. destruct AP as [L _]. destruct (nth_error plains (Z.to_nat q)) as [acts|] eqn:E; [exists acts; split; [reflexivity|lia]|]. apply nth_error_None in E. lia.
    Qed.
    Lemma has_in q acts a : nth_error plains (Z.to_nat q) = Some acts -> 0 <= q -> has q a -> In a acts.
    Proof. intros X Q H. apply (plains_exact _ _ X). rewrite Z2Nat.id by exact Q. exact H. Qed.
    Lemma plains_clear : clear_end actss -> forall q a b, has q a -> has q b -> a_type a = Accept -> a_type b = Reduce -> a_item a <> a_item b.
    Proof.
      intros CE q a b A C TA TB. destruct (plains_range q (has_state q a A (or_introl TA))) as (acts & X & Q). destruct (plains_sub _ acts a X (has_in q acts a X Q A)) as (acts1 & X1 & I1). destruct (plains_sub _ acts b X (has_in q acts b X Q C)) as (acts2 & X2 & I2).
      rewrite X1 in X2. injection X2 as <-. apply (CE acts1 a b); auto. eapply nth_error_In, X1.
    Qed.
    (** When no start symbol is used in a rule *)
    Definition good (k : lr0) : Prop := (exists l, In l languages /\ l_rule k = mkRule IEmpty [l]) \/ (In (r_nonterminal (l_rule k)) us /\ expands rules (r_nonterminal (l_rule k)) (r_items (l_rule k))).
    Lemma after_in k j : In j (after_dot k) -> In j (r_items (l_rule k)).
    Proof. unfold after_dot. intros I. rewrite <- (firstn_skipn (l_offset k) (r_items (l_rule k))). apply in_app_iff. right. exact I. Qed.
    Lemma good_in k j : good k -> In j (after_dot k) -> In j us.
    Proof. intros [(l & I & E)|[U E]] J; apply after_in in J; [rewrite E in J; destruct J as [<-|[]]; apply (wk_languages _ _ _ _ WK), I|exact (work_expands rules us rank languages WK _ _ E U j J)]. Qed.
    Lemma good_closure (K : lr0 -> Prop) : (forall k, K k -> good k) -> forall k, closure_item rules K k -> good k.
    Proof. intros G k C. induction C as [k X|k y rest r C IH A E]; [apply G, X|]. right. cbn. split; [|exact E]. apply (good_in k y IH). rewrite A. left. reflexivity. Qed.
    Lemma good_state K : lr0_state rules languages K -> forall k, K k -> good k.
    Proof.
      induction 1 as [K l I E|K from k p l rest _ IH C A E|K from x _ IH _ _ E]; intros k' K'; apply E in K'.
      - subst k'. left. exists l. auto.
      - exfalso. assert (U : In (IGuard p l) us) by (apply (good_in k); [apply (good_closure from IH k C)|rewrite A; left; reflexivity]). apply (work_not rules us rank languages WK) in U. destruct U as (_ & _ & _ & U). exact (U p l eq_refl).
      - destruct K' as (k0 & rest & C & _ & ->). apply (good_closure from IH k0 C).
    Qed.
    Lemma top_good k : good k -> top_rule (l_rule k) -> exists l, In l languages /\ l_rule k = mkRule IEmpty [l].
    Proof. intros [G|[U _]] T; [exact G|]. exfalso. apply (work_not rules us rank languages WK) in U. destruct U as (U1 & _ & _ & U2). destruct T as [T|(p & l & T)]; [exact (U1 T)|exact (U2 p l T)]. Qed.
    Lemma unused_clear : starts_unused rules us languages -> forall q a b, has q a -> has q b -> a_type a = Accept -> a_type b = Reduce -> False.
    Proof.
      intros SU q a b A C TA TB. destruct (C54_states_partial _ _ _ _ _ _ _ _ BU B) as (S1 & _). pose proof (S1 q (has_state q a A (or_introl TA))) as LS. pose proof (good_state _ LS) as GS.
      assert (AK : exists k, kernel m q k /\ after_dot k = [] /\ exists l, In l languages /\ l_rule k = mkRule IEmpty [l]).
      { destruct A as [x t S _|x t S _ _|k x (_ & _ & K) _ _|k x (CI & AD & K) _ T|p l n s _ _ _]; cbn in TA; try discriminate TA. destruct (top_good k (good_closure _ GS k CI) T) as (l & LI & E). exists k. split; [|split; [exact AD|exists l; auto]].
        destruct CI as [k KK|k y rest r CI A X]; [exact KK|]. cbn in E. injection E as -> _. inversion X. }
      destruct AK as (k & KQ & AD & l & LI & E).
      assert (ALL : forall k', kernel m q k' -> after_dot k' = [] /\ top_rule (l_rule k')).
      { inversion LS as [l0 _ EQ|from k0 p l0 rest LF C0 A0 EQ|from x LF _ _ EQ].
        - apply EQ in KQ. subst k. discriminate AD.
        - apply EQ in KQ. subst k. discriminate E.
        - apply EQ in KQ. destruct KQ as (k1 & r1 & C1 & A1 & ->). cbn in E. pose proof (good_state _ LF) as GF. assert (X : x = l) by (assert (J : In x (r_items (l_rule k1))) by (apply after_in; rewrite A1; left; reflexivity); rewrite E in J; destruct J as [<-|[]]; reflexivity). subst x.
          intros k' K'. apply EQ in K'. destruct K' as (k2 & r2 & C2 & A2 & ->). destruct (good_closure from GF k2 C2) as [(l2 & LI2 & E2)|[U2 E2]].
          + split; [|cbn; rewrite E2; left; reflexivity]. clear -A2 E2. destruct k2 as [rr o]. unfold after_dot, advance in *. cbn in *. subst rr. cbn in *. destruct o as [|[|o]]; [reflexivity|discriminate A2|discriminate A2].
          + exfalso. apply (SU _ _ l U2 E2 LI). apply after_in. rewrite A2. left. reflexivity. }
      destruct C as [x t S _|x t S _ _|k' x (CI & _ & K) _ NT|k' x (CI & _ & K) _ _|p l' n s _ _ _]; cbn in TB; try discriminate TB. apply NT.
      assert (KK : kernel m q k'). { destruct CI as [k' KK|k' y rest r CI A' X]; [exact KK|]. exfalso. clear -CI A' ALL. revert y rest A'. induction CI as [k' KK|k' y' rest' r' CI IH A'' X']; intros y rest A'; [destruct (ALL k' KK) as [N _]; rewrite N in A'; discriminate A'|]. exact (IH _ _ A''). }
      apply (ALL k' KK).
    Qed.
    Lemma plains_no_conflict : (forall q x, is_state m q -> ~ clash (rewritten_actions first_of rules languages m (ws m) q) x) -> clear_end actss -> no_conflict rid first_of rules u busy languages m guards.
    Proof.
      intros NC CE. split; [|exact (plains_clear CE)].
      destruct (C36_ends_partial rid first_of rules us busy width sources languages m guards rank [] BU B BB (work_no_guards first_of rules us rank languages WK AN) (work_guard_rank first_of rules us rank languages WK)) as [f H]; [intros w ? ? []|].
      specialize (H f ([], 0%nat) (le_n _) start_any). destruct (find_conflicts rid first_of rules busy sources f m guards [] ([], 0%nat)) as [[found c']|] eqn:E; [|contradiction]. exists sources, f, ([], 0%nat), c'. split; [exact start_any|]. rewrite E. do 2 f_equal.
      destruct (C36_exact_partial _ _ _ _ _ _ _ _ _ _ _ _ _ BU B start_any E) as [EX _]. destruct found as [|fd found]; [reflexivity|]. exfalso. destruct (proj1 (EX (f_state fd) (f_token fd)) (or_introl eq_refl)) as [Q C].
      apply (NC (f_state fd) (f_token fd) Q). apply (plain_clash rid first_of rules u busy sources languages m guards BU B) in C. destruct C as (a & b & A1 & B1 & NE & TA & TB & DA & DB). destruct (plains_range _ Q) as (acts & X & Q0).
      assert (R : forall a, has (f_state fd) a -> rewritten_actions first_of rules languages m (ws m) (f_state fd) a).
      { intros a0 A0. exists acts. destruct (plains_exact _ _ X) as [S1 E1]. rewrite Z2Nat.id in E1 by exact Q0. split; [exact S1|]. split; [exact E1|]. rewrite plain_fold. apply C32_others; [|apply E1, A0]. apply kept_in. apply (plains_kept acts); [eapply nth_error_In, X|apply E1, A0]. }
      exists a, b. auto 10.
    Qed.
    Lemma plains_parser : fits rid rule_of actss -> plain_parser rid rule_of ident sort first_of rules u busy languages plains m guards.
    Proof.
      intros F. split; [exact BU|split; intros U; apply (work_not rules us rank languages WK) in U; tauto| |exact B|exact AP|exact IN|exact SO|exact (plains_fit F)].
      intros p g U. apply (work_not rules us rank languages WK) in U. destruct U as (_ & _ & _ & U). exact (U p g eq_refl).
    Qed.
    Lemma decides : fits rid rule_of actss -> no_conflict rid first_of rules u busy languages m guards -> forall l q, In l languages -> (forall k, kernel m q k <-> k = language_start l) ->
      forall (L : Type) (matched : L -> Z) (renamed : Z -> L -> L) (V : Type) (shift_value : option L -> V) (reduce_value : Z -> Z -> list V -> V) (v0 : V) (input : list L),
      exists n b p, (forall fuel, (n <= fuel)%nat -> parse (make_tables rid rule_of ident sort sort_weak actss []) L matched renamed V shift_value reduce_value fuel (start_parser L V q v0 input) = Done (b, p)) /\
        (b = true <-> exists rs, rightmost rules rs [l] (map (fun x => ITerm (matched x)) (filter (fun x => negb (existsb (Z.eqb (matched x)) ignored)) input))).
    Proof.
      intros F NC l q LI KQ L matched renamed V shift_value reduce_value v0 input. pose proof (plains_parser F) as PP.
      destruct (C43_decides_partial rid rule_of ident sort sort_weak first_of rules u busy languages plains m guards l q PP (work_right first_of rules us rank languages WK AN) NC LI KQ L matched renamed V shift_value reduce_value v0 (filter (fun x => negb (existsb (Z.eqb (matched x)) ignored)) input)) as (n & b & p & D & DB).
      specialize (D n (le_n _)).
      assert (PL : forall acts a, In acts plains -> In a acts -> a_type a <> Guard /\ a_type a <> WeakReduce) by (intros acts a I A; apply In_nth_error in I; destruct I as [j X]; apply (plains_exact j acts X) in A; apply (has_plain _ _ A)).
      assert (PI : forall acts a, In acts plains -> In a acts -> a_type a <> Guard /\ forall s, In s ignored -> a_item a <> ITerm s).
      { intros acts a I A. split; [apply (PL acts a I A)|]. intros s J E. apply (IG s J). apply In_nth_error in I. destruct I as [j X]. apply (plains_exact j acts X), has_plain in A. destruct A as [[A|[A|A]] _]; rewrite E in A; [discriminate A|discriminate A|exact A]. }
      destruct (tables_kept ignored rid rule_of ident sort sort_weak plains plains_kept) as (T1 & T2 & _ & T4 & T5 & _).
      rewrite <- (same_parse (make_tables rid rule_of ident sort sort_weak plains []) (make_tables rid rule_of ident sort sort_weak actss []) (ignored_symbol ignored) T1 T2 T4 T5) in D.
      - destruct (proj2 (C32_parse_partial rid rule_of ident sort sort_weak ignored plains [] SO IN PI F L matched renamed V shift_value reduce_value input q v0 b (p_run p))) as (n' & p' & D' & _); [exists n, p; split; [exact D|reflexivity]|].
        exists n', b, p'. split; [|exact DB]. intros fuel FU. exact (parse_done rid rule_of ident sort sort_weak actss L matched renamed V shift_value reduce_value n' _ fuel _ D' FU).
      - intros q0 s NI. exact (same_terminal ignored rid rule_of ident sort sort_weak SO plains plains_kept (plain_all_decided _ _ _ _ sort_weak _ _ _ _ _ _ _ _ PP (work_right first_of rules us rank languages WK AN) NC) (plains_fit F) q0 s NI).
      - exact (row_plain rid rule_of ident sort sort_weak SO plains (plains_fit F) PL).
      - cbn. intros x X. apply filter_In in X. destruct X as [_ X]. apply negb_true_iff in X. exact X.
    Qed.
  End Decides.
End Made.
