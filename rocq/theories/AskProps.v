(** C92: the answers an LALR builder keeps. *)
From Verif Require Import Base OrdMap GrammarModel GrammarProofs FirstModel FirstProofs FollowModel FollowSpec FollowProofs FollowProps LrItemModel LrItemProofs ClosureModel ClosureSpec ClosureProofs ClosureTermProofs ClosureProps MachineModel MachineProofs BuilderModel BuilderSpec BuilderProofs BuilderLookProofs BuilderTermProofs BuilderProps ActionModel ActionSpec ActionProofs ActionProps AskModel AskSpec AskProofs.
Local Open Scope Z_scope.

(** Whatever is asked and changed, every question is answered with the LALR actions of the state,
    in their order, as rewritten by the rewriters that were in force when the state was asked for
    first. *)
Theorem C92_answers_partial : forall rid first_of rules u busy languages m guards fuel c ws rs answers, buildable rid first_of rules u languages -> built rid first_of rules u busy languages m guards -> any_calls rid first_of rules u busy c ->
  history rid first_of rules busy fuel m guards (mkAsked ws [] c) rs = Some answers ->
  length answers = length rs /\
  forall rs1 q rs2 as1 a as2, rs = rs1 ++ Ask q :: rs2 -> answers = as1 ++ a :: as2 -> length as1 = length rs1 ->
    exists acts plain, a = Some acts /\ ssorted action_ltb plain /\ (forall x, In x plain <-> lalr_action rules first_of languages (kernel m) (step m) q x) /\
      acts = rewritten (in_force ws (before q rs)) q plain.
Proof.
  intros rid first_of rules u busy languages m guards fuel c ws rs answers BU B A H. apply (any_calls_ok _ _ _ _ _ _ (bu_ids _ _ _ _ _ BU) (bu_first _ _ _ _ _ BU) (bu_ordinary _ _ _ _ _ BU) (bu_guards _ _ _ _ _ BU)) in A.
  destruct (history_lemma rid first_of rules u busy languages m guards fuel BU B ws rs [] _ answers (fresh_holds rid first_of rules u languages m ws c A) H) as (L & X). split; [exact L|].
  intros rs1 q rs2 as1 a as2 E1 E2 E3. destruct (X rs1 q rs2 as1 a as2 E1 E2 E3) as (acts & -> & plain & (S & P) & E). exists acts, plain. auto.
Qed.
Print Assumptions C92_answers_partial.

(** When all rewriters are set first, the answers do not depend on which states were asked for
    before, how often, or in which order, nor on the caches of the grammar. *)
Theorem C92_settled_partial : forall rid first_of rules u busy languages m guards fuel fuel' c c' ws ws' rs rs' answers answers' rs1 q rs2 as1 a as2 rs1' rs2' as1' a' as2',
  buildable rid first_of rules u languages -> built rid first_of rules u busy languages m guards -> any_calls rid first_of rules u busy c -> any_calls rid first_of rules u busy c' ->
  settled rs -> settled rs' -> in_force ws rs = in_force ws' rs' ->
  history rid first_of rules busy fuel m guards (mkAsked ws [] c) rs = Some answers -> history rid first_of rules busy fuel' m guards (mkAsked ws' [] c') rs' = Some answers' ->
  rs = rs1 ++ Ask q :: rs2 -> answers = as1 ++ a :: as2 -> length as1 = length rs1 ->
  rs' = rs1' ++ Ask q :: rs2' -> answers' = as1' ++ a' :: as2' -> length as1' = length rs1' -> a = a'.
Proof.
  intros rid first_of rules u busy languages m guards fuel fuel' c c' ws ws' rs rs' answers answers' rs1 q rs2 as1 a as2 rs1' rs2' as1' a' as2' BU B A A' S S' W H H' E1 E2 E3 E1' E2' E3'.
  destruct (C92_answers_partial _ _ _ _ _ _ _ _ _ _ _ _ _ BU B A H) as (_ & X). destruct (C92_answers_partial _ _ _ _ _ _ _ _ _ _ _ _ _ BU B A' H') as (_ & X').
  destruct (X _ _ _ _ _ _ E1 E2 E3) as (acts & plain & -> & PS & PE & ->). destruct (X' _ _ _ _ _ _ E1' E2' E3') as (acts' & plain' & -> & PS' & PE' & ->).
  rewrite (plain_unique first_of rules languages m q plain plain' (conj PS PE) (conj PS' PE')).
  rewrite (settled_before rs ws q S), (settled_before rs' ws' q S'), W; [reflexivity| |]; [rewrite E1'|rewrite E1]; apply in_app_iff; right; left; reflexivity.
Qed.
Print Assumptions C92_settled_partial.

(** Every history is answered: for a grammar with finitely many items in which no guard starts with
    itself, if only states of the machine are asked for. *)
Theorem C92_ends_partial : forall rid first_of rules us busy width languages m guards rank rs, buildable rid first_of rules (fun i => In i us) languages -> built rid first_of rules (fun i => In i us) busy languages m guards ->
  (forall n stack i, (width <= count_occ item_dec stack i)%nat -> busy n stack i = true) ->
  (forall i p l, In i us -> In (IGuard p l) (first_of i) -> In (IGuard p l) us) ->
  (forall p l p' l', In (IGuard p l) us -> begins first_of l (IGuard p' l') -> (rank (IGuard p' l') < rank (IGuard p l))%nat) ->
  (forall q, In (Ask q) rs -> is_state m q) ->
  exists fuel0, forall fuel c ws, (fuel0 <= fuel)%nat -> any_calls rid first_of rules (fun i => In i us) busy c -> history rid first_of rules busy fuel m guards (mkAsked ws [] c) rs <> None.
Proof.
  intros rid first_of rules us busy width languages m guards rank rs BU B BB FU RK IS.
  assert (G : exists fuel0, forall fuel b, (fuel0 <= fuel)%nat -> cache_ok rid first_of rules (fun i => In i us) (fst (ab_cache b)) -> history rid first_of rules busy fuel m guards b rs <> None).
  { induction rs as [|r rs IH]; [exists 0%nat; discriminate|]. destruct IH as (f1 & IH); [intros q I; apply IS; right; exact I|]. destruct r as [w|ws|q].
    - exists f1. intros fuel b F C. cbn [history]. specialize (IH fuel (add_rewriter b w) F C). destruct (history _ _ _ _ _ _ _ _ _); [discriminate|contradiction].
    - exists f1. intros fuel b F C. cbn [history]. specialize (IH fuel (set_rewriters b ws) F C). destruct (history _ _ _ _ _ _ _ _ _); [discriminate|contradiction].
    - destruct (plain_ends _ _ _ _ _ _ _ _ _ _ q BU B BB FU RK (IS q (or_introl eq_refl))) as (f2 & E). exists (f1 + f2)%nat. intros fuel b F C. cbn [history]. unfold ask. destruct (mfind Z.ltb q (ab_kept b)) as [kept|].
      + specialize (IH fuel b ltac:(lia) C). destruct (history _ _ _ _ _ _ _ _ _); [discriminate|contradiction].
      + specialize (E fuel (ab_cache b) ltac:(lia) C). unfold actions_for_state. destruct (plain_actions _ _ _ _ _ _ _ _ _) as [[plain c']|] eqn:EP; [|contradiction].
        destruct (plain_exact _ _ _ _ _ _ _ _ BU B _ _ _ _ _ C EP) as (C' & _). match goal with |- context [history _ _ _ _ _ _ _ ?b' rs] => specialize (IH fuel b' ltac:(lia) C') end. destruct (history _ _ _ _ _ _ _ _ _); [discriminate|contradiction]. }
  destruct G as (f & G). exists f. intros fuel c ws F A. apply G; [exact F|]. exact (any_calls_ok _ _ _ _ _ _ (bu_ids _ _ _ _ _ BU) (bu_first _ _ _ _ _ BU) (bu_ordinary _ _ _ _ _ BU) (bu_guards _ _ _ _ _ BU) A).
Qed.
Print Assumptions C92_ends_partial.

(** The full statement (answers follow the rewriters in force when the question is asked) fails: a
    rewriter that is added after a state has been asked for is not used for this state, although it
    is used for others. *)
Definition drop_all : rewriter := fun _ _ => [].
Theorem C92_late_refuted : exists rid first_of rules u busy languages m guards fuel kept, buildable rid first_of rules u languages /\ built rid first_of rules u busy languages m guards /\
  history rid first_of rules busy fuel m guards (mkAsked [] [] ([], 0%nat)) [Ask 6; AddRewriter drop_all; Ask 6; Ask 0] = Some [Some kept; None; Some kept; Some []] /\
  history rid first_of rules busy fuel m guards (mkAsked [] [] ([], 0%nat)) [AddRewriter drop_all; Ask 6] = Some [None; Some []] /\ kept <> [].
Proof.
  exists rule_number, (first_by (rules_of nts_guard) 9), (rules_of nts_guard), (fun i => In i items_guard), one_object, [INonterm 0]. eexists. eexists. exists 30%nat. eexists.
  split; [exact guard_buildable|]. split; [exists 30%nat, 60%nat, ([], 0%nat); eexists; eexists; split; [constructor|vm_compute; reflexivity]|].
  split; [vm_compute; reflexivity|]. split; [vm_compute; reflexivity|discriminate].
Qed.
Print Assumptions C92_late_refuted.

(** Rewriters run in the order they were added; a repeated question gets the same answer. *)
Definition reverse_all : rewriter := fun _ => @rev action.
Definition first_only : rewriter := fun _ acts => firstn 1 acts.
Example C92_nontrivial : exists m guards shift_guard reduce_end, built rule_number (first_by (rules_of nts_guard) 9) (rules_of nts_guard) (fun i => In i items_guard) one_object [INonterm 0] m guards /\
  (forall q, In q [0; 6] -> is_state m q) /\
  history rule_number (first_by (rules_of nts_guard) 9) (rules_of nts_guard) one_object 30 m guards (mkAsked [drop_all] [] ([], 0%nat)) [Ask 0; SetRewriters [first_only]; AddRewriter reverse_all; Ask 6; SetRewriters [reverse_all; first_only]; Ask 6; Ask 0] =
    Some [Some []; None; None; Some [reduce_end]; None; Some [reduce_end]; Some []] /\
  history rule_number (first_by (rules_of nts_guard) 9) (rules_of nts_guard) one_object 30 m guards (mkAsked [] [] ([], 0%nat)) [AddRewriter reverse_all; AddRewriter first_only; Ask 6] = Some [None; None; Some [shift_guard]] /\
  reduce_end = mkAction Reduce IEoi (-1) (mkRule (INonterm 1) [ITerm 4]) /\ shift_guard = mkAction Shift (IGuard 0 [ITerm 4]) 4 no_rule.
Proof.
  eexists. eexists. eexists. eexists. split; [exists 30%nat, 60%nat, ([], 0%nat); eexists; eexists; split; [constructor|vm_compute; reflexivity]|]. split; [intros q [<-|[<-|[]]]; vm_compute; discriminate|]. split; [vm_compute; reflexivity|]. split; [vm_compute; reflexivity|]. split; reflexivity.
Qed.
