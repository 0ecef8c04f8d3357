(** Proofs about the check of guards. *)
From Verif Require Import Base OrdMap TermDictModel GrammarModel GrammarProofs FirstModel FirstSpec FirstProofs LangModel LangLexProofs LangItemProofs GuardCheckModel GuardCheckSpec.
Local Open Scope Z_scope.

Section First.
  Context (rules : Z -> list (list item)) (u : item -> Prop).
  Lemma items_earlier fuel l : forall c res c' s, earlier rules u c -> (forall i, In i l -> u i) -> first_for_items rules fuel l c res = Some (c', s) -> earlier rules u c'.
  Proof.
    induction l as [|i l IH]; intros c res c' s E U H; cbn [first_for_items] in H; [injection H as <- _; exact E|].
    destruct (first rules fuel i c) as [[c1 f]|] eqn:F; [|discriminate H]. cbv zeta in H. assert (E1 : earlier rules u c1) by (eapply earlier_call; [exact E|apply U; left; reflexivity|exact F]).
    destruct (icontains _ IEmpty); [|injection H as <- _; exact E1]. eapply IH; [exact E1|intros j J; apply U; right; exact J|exact H].
  Qed.
  Lemma rule_earlier fuel l c c' s : earlier rules u c -> (forall i, In i l -> u i) -> first_for_rule rules fuel l c = Some (c', s) -> earlier rules u c'.
  Proof. intros E U H. destruct l as [|i l]; [injection H as <- _; exact E|]. eapply items_earlier; eassumption. Qed.
  Lemma items_sorted fuel l : forall c res c' s, set_ok res -> first_for_items rules fuel l c res = Some (c', s) -> set_ok s.
  Proof.
    induction l as [|i l IH]; intros c res c' s SO H; cbn [first_for_items] in H; [injection H as _ <-; apply iinsert_ok, SO|].
    destruct (first rules fuel i c) as [[c1 f]|]; [|discriminate H]. cbv zeta in H. assert (S1 : set_ok (imerge (ierase IEmpty res) f)) by (apply imerge_ok, ierase_ok, SO).
    destruct (icontains _ IEmpty); [eapply IH; eassumption|injection H as _ <-; exact S1].
  Qed.
  Lemma rule_sorted fuel l c c' s : first_for_rule rules fuel l c = Some (c', s) -> set_ok s.
  Proof. intros H. destruct l as [|i l]; [injection H as _ <-; apply single_ok|]. eapply items_sorted; [|exact H]. constructor. Qed.
End First.

(** ** The guards that are collected *)
Section Collected.
  Context (tm : name -> Z).
  Definition keeps (c c' : ids * list item) (r : list item) : Prop :=
    (forall g, In g (snd c) -> In g (snd c')) /\ forall g i, In i r -> occurs g i -> In g (snd c').
  Lemma keeps_none c : keeps c c []. Proof. split; [auto|intros g i []]. Qed.
  Lemma keeps_app a b c r q : keeps a b r -> keeps b c q -> keeps a c (r ++ q).
  Proof. intros [A B] [C D]. split; [auto|]. intros g i I O. apply in_app_iff in I. destruct I as [I|I]; [apply C; eapply B; eassumption|eapply D; eassumption]. Qed.
  Lemma keeps_ids g g' gs c r : keeps c (g, gs) r -> keeps c (g', gs) r. Proof. exact (fun H => H). Qed.
  Lemma keeps_made (i : item) (c0 c : ids * list item) x : (let '(g, _) := identifier_for_item i (fst c) in Some ((g, snd c), [i])) = Some x -> keeps c0 c [i] -> keeps c0 (fst x) (snd x).
  Proof. destruct (identifier_for_item i (fst c)) as [g n]. intros E K. injection E as <-. exact K. Qed.
  Lemma keeps_ebnf k rs c c' : (forall r, In r rs -> keeps c c' r) -> rs <> [] -> keeps c c' [IEbnf k rs].
  Proof.
    intros K N. split; [destruct rs as [|r rs]; [congruence|apply (K r); left; reflexivity]|]. intros g i [<-|[]] O. inversion O as [|? ? ? ? I J|? ? ? r j R J O']; subst. destruct (K r R) as [_ B]. eapply B; eassumption.
  Qed.
  Lemma keeps_more (c c' c'' : ids * list item) r q : keeps c c' r -> keeps c' c'' q -> keeps c c'' r.
  Proof. intros [A B] [C D]. split; [auto|]. intros g i I O. apply C. eapply B; eassumption. Qed.
  Lemma keeps_less (c c' c'' : ids * list item) r q : keeps c c' r -> keeps c' c'' q -> keeps c c'' q.
  Proof. intros [A B] [C D]. split; [auto|exact D]. Qed.

  Lemma item_keeps : forall e c c' r, compile_item tm e c = Some (c', r) -> keeps c c' r.
  Proof.
    fix IH 1. intros [k src n l] c c' r H.
    assert (CH : forall l : list ebnf, Forall (fun e => forall c c' r, compile_item tm e c = Some (c', r) -> keeps c c' r) l).
    { fix CH 1. intros [|e l']; constructor; [exact (IH e)|exact (CH l')]. }
    specialize (CH l). clear IH. cbn [compile_item] in H. destruct k.
    - destruct (id_for_nonterminal n (fst c)) as [g id]. injection H as <- <-. split; [auto|]. intros g0 i [<-|[]] O. inversion O.
    - injection H as <- <-. split; [auto|]. intros g0 i [<-|[]] O. inversion O.
    - injection H as <- <-. split; [auto|]. intros g0 i [<-|[]] O. inversion O.
    - injection H as <- <-. split; [auto|]. intros g0 i [<-|[]] O. inversion O.
    - destruct l as [|e l]; [discriminate H|]. inversion CH as [|? ? C1 _]; subst. destruct (compile_item tm e c) as [[[g gs] q]|] eqn:E; [|discriminate H]. apply C1 in E. apply (keeps_made _ c) in H; [exact H|]. clear H. destruct E as [A B]. cbn [snd] in *. split; [intros x X; cbn [snd]; apply (sins_in _ item_strict); right; apply A, X|].
      intros x i [<-|[]] O. cbn [snd]. apply (sins_in _ item_strict). inversion O as [|? ? ? j J O'|]; subst; [left; reflexivity|right; eapply B; eassumption].
    - destruct l as [|e [|f l]]; try discriminate H. inversion CH as [|? ? C1 CH2]; subst. inversion CH2 as [|? ? C2 _]; subst. destruct (compile_item tm e c) as [[c1 q1]|] eqn:E1; [|discriminate H]. destruct (compile_item tm f c1) as [[c2 q2]|] eqn:E2; [|discriminate H]. apply C1 in E1. apply C2 in E2.
      apply (keeps_made _ c) in H; [exact H|]. apply keeps_ebnf; [|discriminate]. intros r0 [<-|[<-|[]]]; [eapply keeps_more; eassumption|eapply keeps_less; eassumption].
    - destruct l as [|e l]; [discriminate H|]. inversion CH as [|? ? C1 _]; subst. destruct (compile_item tm e c) as [[c1 q]|] eqn:E; [|discriminate H]. apply C1 in E. apply (keeps_made _ c) in H; [exact H|]. apply keeps_ebnf; [|discriminate]. intros r0 [<-|[]]. exact E.
    - destruct l as [|e l]; [discriminate H|]. inversion CH as [|? ? C1 _]; subst. destruct (compile_item tm e c) as [[c1 q]|] eqn:E; [|discriminate H]. apply C1 in E. apply (keeps_made _ c) in H; [exact H|]. apply keeps_ebnf; [|discriminate]. intros r0 [<-|[]]. exact E.
    - destruct l as [|e l]; [discriminate H|]. inversion CH as [|? ? C1 _]; subst. destruct (compile_item tm e c) as [[c1 q]|] eqn:E; [|discriminate H]. apply C1 in E. apply (keeps_made _ c) in H; [exact H|]. apply keeps_ebnf; [|discriminate]. intros r0 [<-|[]]. exact E.
    - revert c c' r H. induction CH as [|e l C1 CH IH]; intros c c' r H; [injection H as <- <-; apply keeps_none|]. cbn beta iota in H.
      destruct (compile_item tm e c) as [[c1 q]|] eqn:E; [|discriminate H]. apply C1 in E.
      match type of H with match ?f l c1 with _ => _ end = _ => destruct (f l c1) as [[c2 k]|] eqn:E2; [|discriminate H] end. injection H as <- <-. apply IH in E2. eapply keeps_app; eassumption.
  Qed.
  Lemma items_keeps l : forall c c' r, compile_items tm l c = Some (c', r) -> keeps c c' r.
  Proof.
    induction l as [|e l IH]; intros c c' r H; cbn [compile_items] in H; [injection H as <- <-; apply keeps_none|].
    destruct (compile_item tm e c) as [[c1 q]|] eqn:E; [|discriminate H]. destruct (compile_items tm l c1) as [[c2 k]|] eqn:E2; [|discriminate H]. injection H as <- <-. eapply keeps_app; [eapply item_keeps; eassumption|eapply IH; eassumption].
  Qed.

  Definition collected (g : gram_state) : Prop := msorted Z.ltb (g_rules g) /\ forall x, guard_of (g_rules g) x -> In x (g_guards g).
  Lemma production_collected id g p g' : define_production tm id g p = Some g' -> collected g -> collected g'.
  Proof.
    unfold define_production. destruct (compile_items tm p (g_ids g, g_guards g)) as [[[i gs] r]|] eqn:E; [|discriminate]. destruct (identifier_for_rule (mkRule (INonterm id) r) i) as [j m]. intros H [SO C]. injection H as <-. apply items_keeps in E. destruct E as [A B].
    split; [cbn; apply mset_sorted; [apply Zltb_strict|exact SO]|]. intros x (n & l & q & it & N & L & Q & O). cbn [g_rules g_guards snd] in *. apply (mset_in _ Zltb_strict _ SO) in N.
    assert (D : (exists l, In (n, l) (g_rules g) /\ In q l) \/ q = r).
    { destruct N as [N|[N _]]; [injection N as -> ->|left; exists l; auto]. apply in_app_iff in L. destruct L as [L|[<-|[]]]; [|auto]. left. unfold LangModel.rules_of in L. destruct (mfind Z.ltb id (g_rules g)) as [l0|] eqn:F; [|destruct L]. exists l0. split; [apply (mfind_in _ Zltb_strict _ SO), F|exact L]. }
    destruct D as [(l0 & I & J)| ->]; [|eapply B; eassumption]. apply A, C. exists n, l0, q, it. auto.
  Qed.
  Lemma each_collected {S X} (P : S -> Prop) (f : S -> X -> option S) (l : list X) : (forall s x s', f s x = Some s' -> P s -> P s') -> forall s s', each f l s = Some s' -> P s -> P s'.
  Proof. intros H. induction l as [|x l IH]; intros s s' E; cbn [each] in E; [injection E as <-; auto|]. destruct (f s x) as [s1|] eqn:F; [|discriminate E]. intros Q. eapply IH; [exact E|]. eapply H; eassumption. Qed.
  Lemma nonterminal_collected g d g' : define_nonterminal tm g d = Some g' -> collected g -> collected g'.
  Proof.
    unfold define_nonterminal. destruct (id_for_nonterminal (nd_name d) (g_ids g)) as [i id]. cbv zeta. intros H C. eapply (each_collected collected); [intros s x s'; apply production_collected|exact H|]. clear H.
    set (g0 := mkGram i (g_rules g) (g_guards g) (g_messages g)). assert (C0 : collected g0) by exact C. change (g_rules g0) with (g_rules g). destruct (match LangModel.rules_of (g_rules g) id with [] => false | _ => true end); destruct (nd_kind d); try exact C0.
    destruct C as [SO C]. split; [cbn; apply mset_sorted; [apply Zltb_strict|exact SO]|]. intros x (n & l & q & it & N & L & Q & O). cbn [g_rules set_rules g_guards g0] in *. apply (mset_in _ Zltb_strict _ SO) in N.
    destruct N as [N|[N _]]; [injection N as -> ->; destruct L|]. apply C. exists n, l, q, it. auto.
  Qed.
End Collected.

Lemma report_collected m g : collected g -> collected (g_report m g). Proof. exact (fun H => H). Qed.
Lemma fold_collected {X} (f : gram_state -> X -> gram_state) l : (forall g x, collected g -> collected (f g x)) -> forall g, collected g -> collected (fold_left f l g).
Proof. intros H. induction l as [|x l IH]; intros g C; [exact C|]. apply IH, H, C. Qed.
Lemma language_collected st l st' : compile_language st l = Some st' -> collected (s_gram st) -> collected (s_gram st').
Proof.
  unfold compile_language. destruct (define_expressions l (s_lex st)) as [x|]; [|discriminate]. destruct (define_lexemes l x) as [x1|]; [|discriminate]. destruct (define_implicit l x1) as [x2|]; [|discriminate].
  destruct (define_grammar _ l (s_gram st)) as [g|] eqn:G; [|discriminate]. destruct (process_rules g _ _) as [a b]. intros H C. injection H as <-. cbn [s_gram].
  apply (each_collected collected) in G; [|intros s d s'; apply nonterminal_collected|exact C]. unfold check_nonterminals, check_precedence. apply fold_collected; [|apply fold_collected; [|exact G]].
  - intros g0 id C0. destruct (item_with_identifier id _); try exact C0. destruct (LangModel.rules_of _ _); exact C0.
  - intros g0 un C0. destruct un; try exact C0. apply fold_collected; [|exact C0]. intros g1 nm C1. destruct (symbol_for_name _ _ <? 0); exact C1.
Qed.
Lemma chain_collected ls st : compile_chain ls = Some st -> collected (s_gram st).
Proof. intros H. apply (each_collected (fun s => collected (s_gram s))) in H; [exact H|intros s l s'; apply language_collected|]. split; [constructor|]. intros x (n & l & r & i & [] & _). Qed.

(** ** Only the guards of the rules are collected *)
Section Only.
  Context (tm : name -> Z).
  Definition adds (c c' : ids * list item) (r : list item) : Prop :=
    (ssorted item_ltb (snd c) -> ssorted item_ltb (snd c')) /\ forall g, In g (snd c') -> In g (snd c) \/ exists i, In i r /\ occurs g i.
  Lemma adds_none c r : adds c c r. Proof. split; auto. Qed.
  Lemma adds_app a b c r q : adds a b r -> adds b c q -> adds a c (r ++ q).
  Proof.
    intros [A B] [C D]. split; [auto|]. intros g G. destruct (D g G) as [G'|(i & I & O)]; [|right; exists i; split; [apply in_app_iff; auto|exact O]].
    destruct (B g G') as [G2|(i & I & O)]; [auto|right; exists i; split; [apply in_app_iff; auto|exact O]].
  Qed.
  Lemma adds_made (i : item) (c0 c : ids * list item) x : (let '(g, _) := identifier_for_item i (fst c) in Some ((g, snd c), [i])) = Some x -> adds c0 c [i] -> adds c0 (fst x) (snd x).
  Proof. destruct (identifier_for_item i (fst c)) as [g n]. intros E K. injection E as <-. exact K. Qed.
  Lemma adds_ebnf1 k r c c' : adds c c' r -> adds c c' [IEbnf k [r]].
  Proof. intros [A B]. split; [exact A|]. intros g G. destruct (B g G) as [X|(i & I & O)]; [auto|]. right. eexists. split; [left; reflexivity|]. eapply occurs_in_ebnf; [left; reflexivity|exact I|exact O]. Qed.
  Lemma adds_ebnf2 k r q a b c : adds a b r -> adds b c q -> adds a c [IEbnf k [r; q]].
  Proof.
    intros [A B] [C D]. split; [auto|]. intros g G. destruct (D g G) as [X|(i & I & O)].
    - destruct (B g X) as [Y|(i & I & O)]; [auto|]. right. eexists. split; [left; reflexivity|]. eapply occurs_in_ebnf; [left; reflexivity|exact I|exact O].
    - right. eexists. split; [left; reflexivity|]. eapply occurs_in_ebnf; [right; left; reflexivity|exact I|exact O].
  Qed.
  Lemma item_adds : forall e c c' r, compile_item tm e c = Some (c', r) -> adds c c' r.
  Proof.
    fix IH 1. intros [k src n l] c c' r H.
    assert (CH : forall l : list ebnf, Forall (fun e => forall c c' r, compile_item tm e c = Some (c', r) -> adds c c' r) l).
    { fix CH 1. intros [|e l']; constructor; [exact (IH e)|exact (CH l')]. }
    specialize (CH l). clear IH. cbn [compile_item] in H. destruct k.
    - destruct (id_for_nonterminal n (fst c)) as [g id]. injection H as <- <-. exact (adds_none c _).
    - injection H as <- <-. apply adds_none.
    - injection H as <- <-. apply adds_none.
    - injection H as <- <-. apply adds_none.
    - destruct l as [|e l]; [discriminate H|]. inversion CH as [|? ? C1 _]; subst. destruct (compile_item tm e c) as [[[g gs] q]|] eqn:E; [|discriminate H]. apply C1 in E. apply (adds_made _ c) in H; [exact H|]. clear H. destruct E as [A B]. cbn [snd] in *. split; [intros SO; cbn [snd]; apply (sins_sorted _ item_strict), A, SO|].
      intros x X. cbn [snd] in X. apply (sins_in _ item_strict) in X. destruct X as [->|X]; [right; eexists; split; [left; reflexivity|constructor]|]. destruct (B x X) as [Y|(i & I & O)]; [auto|]. right. eexists. split; [left; reflexivity|]. eapply occurs_in_guard; eassumption.
    - destruct l as [|e [|f l]]; try discriminate H. inversion CH as [|? ? C1 CH2]; subst. inversion CH2 as [|? ? C2 _]; subst. destruct (compile_item tm e c) as [[c1 q1]|] eqn:E1; [|discriminate H]. destruct (compile_item tm f c1) as [[c2 q2]|] eqn:E2; [|discriminate H]. apply C1 in E1. apply C2 in E2.
      apply (adds_made _ c) in H; [exact H|]. eapply adds_ebnf2; eassumption.
    - destruct l as [|e l]; [discriminate H|]. inversion CH as [|? ? C1 _]; subst. destruct (compile_item tm e c) as [[c1 q]|] eqn:E; [|discriminate H]. apply C1 in E. apply (adds_made _ c) in H; [exact H|]. apply adds_ebnf1, E.
    - destruct l as [|e l]; [discriminate H|]. inversion CH as [|? ? C1 _]; subst. destruct (compile_item tm e c) as [[c1 q]|] eqn:E; [|discriminate H]. apply C1 in E. apply (adds_made _ c) in H; [exact H|]. apply adds_ebnf1, E.
    - destruct l as [|e l]; [discriminate H|]. inversion CH as [|? ? C1 _]; subst. destruct (compile_item tm e c) as [[c1 q]|] eqn:E; [|discriminate H]. apply C1 in E. apply (adds_made _ c) in H; [exact H|]. apply adds_ebnf1, E.
    - revert c c' r H. induction CH as [|e l C1 CH IH]; intros c c' r H; [injection H as <- <-; apply adds_none|]. cbn beta iota in H.
      destruct (compile_item tm e c) as [[c1 q]|] eqn:E; [|discriminate H]. apply C1 in E.
      match type of H with match ?f l c1 with _ => _ end = _ => destruct (f l c1) as [[c2 k]|] eqn:E2; [|discriminate H] end. injection H as <- <-. apply IH in E2. eapply adds_app; eassumption.
  Qed.
  Lemma items_adds l : forall c c' r, compile_items tm l c = Some (c', r) -> adds c c' r.
  Proof.
    induction l as [|e l IH]; intros c c' r H; cbn [compile_items] in H; [injection H as <- <-; apply adds_none|].
    destruct (compile_item tm e c) as [[c1 q]|] eqn:E; [|discriminate H]. destruct (compile_items tm l c1) as [[c2 k]|] eqn:E2; [|discriminate H]. injection H as <- <-. eapply adds_app; [eapply item_adds; eassumption|eapply IH; eassumption].
  Qed.

  Definition only (g : gram_state) : Prop := msorted Z.ltb (g_rules g) /\ ssorted item_ltb (g_guards g) /\ forall x, In x (g_guards g) -> guard_of (g_rules g) x.
  Lemma production_only id g p g' : define_production tm id g p = Some g' -> only g -> only g'.
  Proof.
    unfold define_production. destruct (compile_items tm p (g_ids g, g_guards g)) as [[[i gs] r]|] eqn:E; [|discriminate]. destruct (identifier_for_rule (mkRule (INonterm id) r) i) as [j m]. intros H (SO & SG & C). injection H as <-. apply items_adds in E. destruct E as [A B]. cbn [snd g_rules g_guards] in *.
    split; [cbn; apply mset_sorted; [apply Zltb_strict|exact SO]|]. split; [apply A, SG|]. intros x X. destruct (B x X) as [Y|(it & I & O)].
    - destruct (C x Y) as (n & l & q & it & N & L & Q & O). destruct (Z.eq_dec n id) as [->|NE].
      + assert (F : mfind Z.ltb id (g_rules g) = Some l) by (apply (mfind_in _ Zltb_strict _ SO), N). exists id, (LangModel.rules_of (g_rules g) id ++ [r]), q, it. unfold LangModel.rules_of. rewrite F. split; [apply (mset_in _ Zltb_strict _ SO); left; reflexivity|]. split; [apply in_app_iff; auto|auto].
      + exists n, l, q, it. split; [apply (mset_in _ Zltb_strict _ SO); right; auto|auto].
    - eexists id, _, r, it. split; [apply (mset_in _ Zltb_strict _ SO); left; reflexivity|]. split; [apply in_app_iff; right; left; reflexivity|auto].
  Qed.
  Lemma nonterminal_only g d g' : nd_kind d <> Replace -> define_nonterminal tm g d = Some g' -> only g -> only g'.
  Proof.
    intros NR. unfold define_nonterminal. destruct (id_for_nonterminal (nd_name d) (g_ids g)) as [i id]. cbv zeta. intros H C. eapply (each_collected only); [intros s x s'; apply production_only|exact H|]. clear H.
    destruct (match LangModel.rules_of _ id with [] => false | _ => true end); destruct (nd_kind d); try exact C; congruence.
  Qed.
End Only.
Lemma fold_only {X} (f : gram_state -> X -> gram_state) l : (forall g x, only g -> only (f g x)) -> forall g, only g -> only (fold_left f l g).
Proof. intros H. induction l as [|x l IH]; intros g C; [exact C|]. apply IH, H, C. Qed.
Lemma each_only {S X} (P : S -> Prop) (f : S -> X -> option S) (l : list X) : (forall s x s', In x l -> f s x = Some s' -> P s -> P s') -> forall s s', each f l s = Some s' -> P s -> P s'.
Proof. induction l as [|x l IH]; intros H s s' E; cbn [each] in E; [injection E as <-; auto|]. destruct (f s x) as [s1|] eqn:F; [|discriminate E]. intros Q. eapply IH; [intros a b c I; apply H; right; exact I|exact E|]. eapply H; [left; reflexivity|eassumption|eassumption]. Qed.
Lemma language_only st l st' : (forall d, In d (nonterminals l) -> nd_kind d <> Replace) -> compile_language st l = Some st' -> only (s_gram st) -> only (s_gram st').
Proof.
  intros NR. unfold compile_language. destruct (define_expressions l (s_lex st)) as [x|]; [|discriminate]. destruct (define_lexemes l x) as [x1|]; [|discriminate]. destruct (define_implicit l x1) as [x2|]; [|discriminate].
  destruct (define_grammar _ l (s_gram st)) as [g|] eqn:G; [|discriminate]. destruct (process_rules g _ _) as [a b]. intros H C. injection H as <-. cbn [s_gram].
  apply (each_only only) in G; [|intros s d s' I; apply nonterminal_only, NR, I|exact C]. unfold check_nonterminals, check_precedence. apply fold_only; [|apply fold_only; [|exact G]].
  - intros g0 id C0. destruct (item_with_identifier id _); try exact C0. destruct (LangModel.rules_of _ _); exact C0.
  - intros g0 un C0. destruct un; try exact C0. apply fold_only; [|exact C0]. intros g1 nm C1. destruct (symbol_for_name _ _ <? 0); exact C1.
Qed.
Lemma chain_only ls st : (forall l d, In l ls -> In d (nonterminals l) -> nd_kind d <> Replace) -> compile_chain ls = Some st -> only (s_gram st).
Proof. intros NR H. apply (each_only (fun s => only (s_gram s))) in H; [exact H|intros s l s' I; apply language_only; intros d; apply (NR l d I)|]. split; [constructor|]. split; [constructor|]. intros x []. Qed.
Lemma guards_nodup l : ssorted item_ltb l -> NoDup l.
Proof.
  induction l as [|a l IH]; intros H; [constructor|]. apply ssorted_cons in H. destruct H as [H L]. constructor; [|auto]. intros I. specialize (L a I). rewrite (st_irrefl _ item_strict) in L. discriminate L.
Qed.
