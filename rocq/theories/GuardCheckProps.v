(** C78: guards that can match nothing are reported. *)
From Verif Require Import Base OrdMap TermDictModel GrammarModel GrammarProofs FirstModel FirstSpec FirstProofs FirstProps LangModel LangSpec LangProps GuardCheckModel GuardCheckSpec GuardCheckProofs.
Local Open Scope Z_scope.

(** Every guard in a rule of a compiled language, or of the languages it inherits from, is checked. *)
Theorem C78_collected : forall ls st, compile_chain ls = Some st -> forall g, guard_of (g_rules (s_gram st)) g -> In g (g_guards (s_gram st)).
Proof. intros ls st H. apply (chain_collected ls st H). Qed.
Print Assumptions C78_collected.

(** Where FIRST is right, exactly the guards among them that can match the empty sequence are reported: as
    errors, or as warnings if they have nothing in them and that is not allowed.  Missing from the full
    property: grammars for which FIRST is not right (C25). *)
Theorem C78_checks_partial : forall rules u rank fuel allowed gs c ms, closed rules u -> plain_ebnf rules u -> no_empty_repeat u -> left_ranked rules u rank -> empty_rules_last rules u ->
  (forall p l i, In (IGuard p l) gs -> In i l -> u i) -> check_guards rules fuel allowed gs [] = Some (c, ms) ->
  (forall g, In (IneffectiveGuard g) ms <-> In g gs /\ exists p l, g = IGuard p l /\ l <> [] /\ nullables rules l) /\
  (forall g, In (EmptyGuard g) ms <-> In g gs /\ allowed = false /\ exists p, g = IGuard p []) /\
  (NoDup gs -> NoDup ms).
Proof.
  intros rules u rank fuel allowed gs c ms CU PE NR LR EL U H. assert (E : earlier rules u []) by constructor. revert E ms c U H. generalize (@nil (item * iset)) as c0.
  induction gs as [|g gs IH]; intros c0 E ms c U H; cbn [check_guards] in H.
  - injection H as _ <-. split; [|split]; [intros g; cbn; tauto|intros g; cbn; tauto|constructor].
  - destruct (check_guard rules fuel allowed g c0) as [[c1 m1]|] eqn:G; [|discriminate H]. destruct (check_guards rules fuel allowed gs c1) as [[c2 m2]|] eqn:R; [|discriminate H]. injection H as _ <-.
    assert (K : earlier rules u c1 /\ ((m1 = [IneffectiveGuard g] /\ exists p l, g = IGuard p l /\ l <> [] /\ nullables rules l) \/ (m1 = [EmptyGuard g] /\ allowed = false /\ exists p, g = IGuard p []) \/
      (m1 = [] /\ (forall p l, g = IGuard p l -> l <> [] -> ~ nullables rules l) /\ (allowed = false -> forall p, g <> IGuard p [])))).
    { clear R IH. unfold check_guard in G. destruct g as [| | |t|n|p l|k rs]; try (injection G as <- <-; split; [exact E|]; right; right; split; [reflexivity|]; split; [intros ? ? X; discriminate X|intros _ ? X; discriminate X]).
      destruct (first_for_rule rules fuel l c0) as [[c' s]|] eqn:F; [|discriminate G]. injection G as <- <-.
      assert (UL : forall i, In i l -> u i) by (intros i I; eapply U; [left; reflexivity|exact I]). split; [eapply rule_earlier; eassumption|].
      pose proof (C25_rule_exact_partial rules u rank c0 fuel l c' s CU PE NR LR EL E UL F IEmpty) as X.
      assert (SI : ssorted item_ltb s) by (eapply rule_sorted; eassumption).
      assert (N : icontains s IEmpty = true <-> nullables rules l).
      { unfold icontains. rewrite (smem_in _ item_strict _ SI), X. split; [intros [[_ Y]|(a & y & b & _ & _ & Y)]; [exact Y|exfalso; eapply starts_not_empty, Y]|auto]. }
      destruct (icontains s IEmpty).
      - assert (NL : nullables rules l) by (apply N; reflexivity). destruct l as [|i l].
        + destruct allowed; [right; right|right; left; eauto]. split; [reflexivity|]. split; [intros q k Q Y; injection Q as _ <-; congruence|discriminate].
        + left. split; [reflexivity|]. exists p, (i :: l). split; [reflexivity|]. split; [discriminate|exact NL].
      - right. right. split; [reflexivity|]. split.
        + intros q k Q _ Y. injection Q as _ <-. apply N in Y. discriminate Y.
        + intros _ q Q. injection Q as _ ->. assert (Y : false = true) by (apply N; constructor). discriminate Y. }
    destruct K as [E1 K]. destruct (IH c1 E1 m2 c2) as (A & B & D); [intros p l i X Y; apply (U p l i (or_intror X) Y)|exact R|]. split; [|split].
    + intros x. rewrite in_app_iff, A. cbn [In]. split.
      * intros [M|[M1 M2]]; [|auto]. destruct K as [[-> W]|[[-> _]|[-> _]]]; cbn in M; [destruct M as [M|[]]; injection M as ->; auto|destruct M as [M|[]]; discriminate M|destruct M].
      * intros [[->|I] W]; [|auto]. left. destruct K as [[-> _]|[[-> (_ & p & ->)]|[_ [N _]]]]; [cbn; auto| |].
        -- destruct W as (q & l & Q & NE & _). injection Q as _ <-. congruence.
        -- destruct W as (q & l & -> & NE & W). exfalso. exact (N q l eq_refl NE W).
    + intros x. rewrite in_app_iff, B. cbn [In]. split.
      * intros [M|[M1 M2]]; [|auto]. destruct K as [[-> _]|[[-> W]|[-> _]]]; cbn in M; [destruct M as [M|[]]; discriminate M|destruct M as [M|[]]; injection M as ->; auto|destruct M].
      * intros [[->|I] W]; [|auto]. left. destruct W as [WA (q & ->)]. destruct K as [[-> (p & l & Q & NE & _)]|[[-> _]|[_ [_ N]]]]; [injection Q as _ <-; congruence|cbn; auto|exfalso; exact (N WA q eq_refl)].
    + intros ND. inversion ND as [|? ? NI ND']; subst. specialize (D ND'). destruct K as [[-> _]|[[-> _]|[-> _]]]; cbn [app]; [constructor; [rewrite A; tauto|exact D]|constructor; [rewrite B; tauto|exact D]|exact D].
Qed.
Print Assumptions C78_checks_partial.

(** So the messages for a language without replaced definitions are those for the guards of its rules, one for
    each. *)
Theorem C78_language_partial : forall ls st u rank fuel allowed ms, compile_chain ls = Some st -> (forall l d, In l ls -> In d (nonterminals l) -> nd_kind d <> Replace) ->
  let rules := LangModel.rules_of (g_rules (s_gram st)) in
  closed rules u -> plain_ebnf rules u -> no_empty_repeat u -> left_ranked rules u rank -> empty_rules_last rules u ->
  (forall g l i, guard_of (g_rules (s_gram st)) g -> asks_for g l -> In i l -> u i) -> check_stage fuel allowed st = Some ms ->
  (forall m, In m ms <-> exists g l, guard_of (g_rules (s_gram st)) g /\ asks_for g l /\ nullables rules l /\ (m = IneffectiveGuard g /\ l <> [] \/ m = EmptyGuard g /\ l = [] /\ allowed = false)) /\ NoDup ms.
Proof.
  intros ls st u rank fuel allowed ms C NR rules CU PE NE LR EL U H. destruct (chain_only ls st NR C) as (_ & SG & ON). pose proof (C78_collected ls st C) as CO. unfold check_stage in H. fold rules in H.
  destruct (check_guards rules fuel allowed (g_guards (s_gram st)) []) as [[c ms']|] eqn:E; [|discriminate H]. injection H as ->. apply (C78_checks_partial rules u rank) in E; try assumption.
  2:{ intros p l i I J. eapply U; [apply ON, I|exists p; reflexivity|exact J]. }
  destruct E as (A & B & D). split; [|apply D, guards_nodup, SG]. intros [g|g].
  - rewrite B. split.
    + intros (I & -> & p & ->). exists (IGuard p []), []. split; [apply ON, I|]. split; [exists p; reflexivity|]. split; [constructor|auto].
    + intros (x & l & G & (p & ->) & N & [[X _]|(X & -> & ->)]); [discriminate X|]. injection X as ->. split; [apply CO, G|]. split; [reflexivity|]. exists p. reflexivity.
  - rewrite A. split.
    + intros (I & p & l & -> & L & N). exists (IGuard p l), l. split; [apply ON, I|]. split; [exists p; reflexivity|auto].
    + intros (x & l & G & (p & ->) & N & [[X L]|[X _]]); [|discriminate X]. injection X as ->. split; [apply CO, G|]. exists p, l. auto.
Qed.
Print Assumptions C78_language_partial.

(** The check ends. *)
Theorem C78_ends : forall rules u fuel allowed gs, closed rules (fun i => In i u) -> (forall p l i, In (IGuard p l) gs -> In i l -> In i u) -> (length u < fuel)%nat ->
  exists c ms, check_guards rules fuel allowed gs [] = Some (c, ms).
Proof.
  intros rules u fuel allowed gs CU U L. assert (E : earlier rules (fun i => In i u) []) by constructor. revert E U. generalize (@nil (item * iset)) as c0.
  induction gs as [|g gs IH]; intros c0 E U; cbn [check_guards]; [eauto|].
  assert (K : exists c1 m1, check_guard rules fuel allowed g c0 = Some (c1, m1) /\ earlier rules (fun i => In i u) c1).
  { unfold check_guard. destruct g as [| | |t|n|p l|k rs]; try (eexists; eexists; split; [reflexivity|exact E]).
    assert (UL : forall i, In i l -> In i u) by (intros i I; eapply U; [left; reflexivity|exact I]).
    assert (F : exists c' s, first_for_rule rules fuel l c0 = Some (c', s)).
    { destruct l as [|i l]; [eexists; eexists; reflexivity|]. cbn [first_for_rule]. clear -CU L E UL. revert c0 E. generalize (@nil item) as res. induction (i :: l) as [|j k IH]; intros res c0 E; cbn [first_for_items]; [eauto|].
      destruct (C25_ends rules u c0 j fuel CU E (UL j (or_introl eq_refl)) L) as (c1 & s & F). rewrite F. cbv zeta. destruct (icontains _ IEmpty); [|eauto]. apply IH; [intros x X; apply UL; right; exact X|]. eapply earlier_call; [exact E|apply UL; left; reflexivity|exact F]. }
    destruct F as (c' & s & F). rewrite F. eexists. eexists. split; [reflexivity|]. eapply rule_earlier; eassumption. }
  destruct K as (c1 & m1 & -> & E1). destruct (IH c1 E1) as (c2 & m2 & ->); [intros p l i X Y; apply (U p l i (or_intror X) Y)|]. eauto.
Qed.
Print Assumptions C78_ends.

(** In the grammar of C25_nontrivial, [=> 3] and [=> (t6 0)*] can match nothing and are reported, [=> 0] and
    [=> (t6 0)* t1] are not. *)
Definition ex_guards : list item := [IGuard (-1) []; IGuard (-1) [INonterm 0]; IGuard (-1) [INonterm 3]; IGuard (-1) [ex_list; ITerm 1]; IGuard 2 [ex_list]].
Example C78_nontrivial : let u := fun i => In i ex_items in
  closed ex_rules u /\ plain_ebnf ex_rules u /\ no_empty_repeat u /\ left_ranked ex_rules u ex_rank /\ empty_rules_last ex_rules u /\
  (forall p l i, In (IGuard p l) ex_guards -> In i l -> u i) /\ (length ex_items < 12)%nat /\
  option_map snd (check_guards ex_rules 12 false ex_guards []) = Some [EmptyGuard (IGuard (-1) []); IneffectiveGuard (IGuard (-1) [INonterm 3]); IneffectiveGuard (IGuard 2 [ex_list])] /\
  option_map snd (check_guards ex_rules 12 true ex_guards []) = Some [IneffectiveGuard (IGuard (-1) [INonterm 3]); IneffectiveGuard (IGuard 2 [ex_list])].
Proof.
  cbv zeta. destruct C25_nontrivial as (A & B & C & D & E & _). repeat (split; [assumption|]). split; [|split; [cbn; lia|split; vm_compute; reflexivity]].
  intros p l i I J. unfold ex_guards, In in I. repeat (destruct I as [I|I]; [injection I as _ <-; cbn in J; unfold ex_items; cbn [In]; intuition auto|]). destruct I.
Qed.

(** A guard in a repetition inside a guard is found: S = [=> ([=> id] 1)*] 1. *)
Definition nested : list (language simple) :=
  [[ULexer unit_lexer (mkBlock false false false [regex n_id [120]; regex n_num [49]]);
    UGrammar [mkNtDef Assignment n_S [[SGuard [SStar (SParen [SGuard [STerminal TName [] n_id] []; STerminal TName [] n_num] [])] []; STerminal TName [] n_num]]]]].
Example C78_collected_nontrivial : let st := result nested in let inner := IGuard (-1) [ITerm 0] in let outer := IGuard (-1) [IEbnf RepeatZero [[inner; ITerm 1]]] in
  compile_chain (map parse_language nested) = Some st /\ guard_of (g_rules (s_gram st)) inner /\ guard_of (g_rules (s_gram st)) outer /\ g_guards (s_gram st) = [inner; outer] /\
  check_stage 10 false st = Some [IneffectiveGuard outer].
Proof.
  cbv zeta. split; [vm_compute; reflexivity|]. assert (E : g_rules (s_gram (result nested)) = [(1, [[IGuard (-1) [IEbnf RepeatZero [[IGuard (-1) [ITerm 0]; ITerm 1]]]; ITerm 1]])]) by (vm_compute; reflexivity). rewrite E.
  split; [|split; [|split; vm_compute; reflexivity]].
  - eexists 1, _, _, _. split; [left; reflexivity|]. split; [left; reflexivity|]. split; [left; reflexivity|]. eapply occurs_in_guard; [left; reflexivity|]. eapply occurs_in_ebnf; [left; reflexivity|left; reflexivity|constructor].
  - eexists 1, _, _, _. split; [left; reflexivity|]. split; [left; reflexivity|]. split; [left; reflexivity|constructor].
Qed.

(** The same language meets the conditions of C78_language_partial. *)
Example C78_language_nontrivial : let st := result nested in let inner := IGuard (-1) [ITerm 0] in let again := IEbnf RepeatZero [[inner; ITerm 1]] in
  let u := fun i => In i [INonterm 1; IGuard (-1) [again]; again; inner; ITerm 0; ITerm 1] in let rules := LangModel.rules_of (g_rules (s_gram st)) in
  compile_chain (map parse_language nested) = Some st /\ (forall l d, In l (map parse_language nested) -> In d (nonterminals l) -> nd_kind d <> Replace) /\
  closed rules u /\ plain_ebnf rules u /\ no_empty_repeat u /\ left_ranked rules u (fun i => match i with INonterm _ => 2 | IEbnf _ _ => 1 | _ => 0 end%nat) /\ empty_rules_last rules u /\
  (forall g l i, guard_of (g_rules (s_gram st)) g -> asks_for g l -> In i l -> u i).
Proof.
  cbv zeta. split; [vm_compute; reflexivity|]. split.
  { intros l d [<-|[]] I. change (In d (nonterminals (parse_language (hd [] nested)))) in I. vm_compute in I. destruct I as [<-|[]]. discriminate. }
  assert (E : g_rules (s_gram (result nested)) = [(1, [[IGuard (-1) [IEbnf RepeatZero [[IGuard (-1) [ITerm 0]; ITerm 1]]]; ITerm 1]])]) by (vm_compute; reflexivity). rewrite E. clear E.
  set (rules := LangModel.rules_of _). set (inner := IGuard (-1) [ITerm 0]). set (again := IEbnf RepeatZero [[inner; ITerm 1]]).
  assert (B : forall i r, In i [INonterm 1; IGuard (-1) [again]; again; inner; ITerm 0; ITerm 1] -> has_body rules i r -> i = INonterm 1 /\ r = [IGuard (-1) [again]; ITerm 1] \/ i = again /\ r = [inner; ITerm 1]).
  { intros i r I H. cbn [In] in I. destruct I as [<-|[<-|[<-|[<-|[<-|[<-|[]]]]]]]; try (destruct H; fail); [left|right]; (split; [reflexivity|]); [destruct H as [<-|[]]; reflexivity|]. destruct H as [rs X]. injection X as <- _. reflexivity. }
  assert (NG : forall p l, ~ nullable rules (IGuard p l)) by (intros p l N; inversion N as [| | |? ? X _]; subst; exact X).
  split; [|split; [|split; [|split; [|split]]]].
  - intros i r j I H J. destruct (B i r I H) as [[-> ->]|[-> ->]]; cbn [In] in *; tauto.
  - intros k rs r I H. destruct (B _ r I H) as [[X ->]|[X ->]]; apply NG.
  - intros rs I. cbn [In] in I. unfold again, inner in I. repeat (destruct I as [I|I]; [discriminate I|]). destruct I.
  - intros i pre y post I H N. left. destruct (B _ _ I H) as [[-> X]|[-> X]].
    + destruct pre as [|a pre]; [injection X as -> _; cbn; lia|]. injection X as -> _. inversion N as [|? ? N1 _]; subst. destruct (NG _ _ N1).
    + destruct pre as [|a pre]; [injection X as -> _; cbn; lia|]. injection X as -> _. inversion N as [|? ? N1 _]; subst. destruct (NG _ _ N1).
  - intros n a r b i k c I H N _. exfalso. assert (X : has_body rules (INonterm n) r) by (cbn [has_body]; rewrite H; apply in_app_iff; right; left; reflexivity).
    destruct (B _ _ I X) as [[_ ->]|[Y _]]; [|discriminate Y]. inversion N as [|? ? N1 _]; subst. destruct (NG _ _ N1).
  - intros g l i (n & rs & r & x & [A|[]] & B2 & B3 & O) (p & ->) J. injection A as <- <-. destruct B2 as [<-|[]]. cbn [In] in B3. destruct B3 as [<-|[<-|[]]]; [|inversion O].
    inversion O as [? ? X|? ? ? x I O'|]; subst; [destruct J as [<-|[]]; cbn; auto|]. destruct I as [<-|[]]. inversion O' as [| |? ? ? r x R I O2]; subst. destruct R as [<-|[]]. destruct I as [<-|[<-|[]]]; [|inversion O2].
    inversion O2 as [? ? X|? ? ? x I O3|]; subst; [destruct J as [<-|[]]; cbn; auto 10|]. destruct I as [<-|[]]. inversion O3.
Qed.

(** The full property is false.  A guard that can match nothing is not reported if FIRST misses that. *)
Theorem C78_missed_refuted : exists rules g l c, asks_for g l /\ l <> [] /\ nullables rules l /\ check_guards rules 5 false [g] [] = Some (c, []).
Proof.
  exists rules_erase, (IGuard (-1) [INonterm 0]), [INonterm 0]. eexists. split; [exists (-1); reflexivity|]. split; [discriminate|]. split; [|vm_compute; reflexivity].
  constructor; [|constructor]. eapply null_body; [left; reflexivity|constructor].
Qed.
Print Assumptions C78_missed_refuted.
(** A guard that cannot match nothing is reported, and compiling fails: [=> (t1? t2)+]. *)
Theorem C78_spurious_refuted : exists g l c, asks_for g l /\ ~ nullables (fun _ => []) l /\ check_guards (fun _ => []) 5 false [g] [] = Some (c, [IneffectiveGuard g]).
Proof.
  exists (IGuard (-1) [ebnf_prefix]), [ebnf_prefix]. eexists. split; [exists (-1); reflexivity|]. split; [|vm_compute; reflexivity].
  destruct C25_ebnf_refuted as (_ & _ & _ & _ & N & _). intros X. inversion X; subst. contradiction.
Qed.
Print Assumptions C78_spurious_refuted.
(** A guard that was replaced, and is in no rule any more, is an error of the language that replaced it. *)
Definition replaced_guard : list (language simple) :=
  [[ULexer unit_lexer (mkBlock false false false [regex n_id [120]; regex n_num [49]]); UGrammar [mkNtDef Assignment n_S [[SGuard [SQuestion (STerminal TName [] n_id)] []; STerminal TName [] n_id]]]];
   [UGrammar [mkNtDef Replace n_S [[STerminal TName [] n_num]]]]].
Theorem C78_replaced_refuted : exists ls st g, Forall written_ok ls /\ compile_chain (map parse_language ls) = Some st /\ ~ guard_of (g_rules (s_gram st)) g /\ check_stage 10 false st = Some [IneffectiveGuard g].
Proof.
  exists replaced_guard, (result replaced_guard). eexists. split; [apply languages_ok; vm_compute; reflexivity|]. split; [vm_compute; reflexivity|]. split; [|vm_compute; reflexivity].
  assert (E : g_rules (s_gram (result replaced_guard)) = [(1, [[ITerm 1]])]) by (vm_compute; reflexivity). rewrite E.
  intros (n & l & r & i & [A|[]] & B & C & D). injection A as <- <-. destruct B as [<-|[]]. destruct C as [<-|[]]. inversion D.
Qed.
Print Assumptions C78_replaced_refuted.
