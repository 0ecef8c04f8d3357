(** C26: FOLLOW sets. *)
From Verif Require Import Base OrdMap GrammarModel GrammarProofs FirstModel FirstSpec FirstProofs FollowModel FollowSpec FollowProofs.
Local Open Scope Z_scope.

(** The FIRST sets of a grammar as calls of [first] answer them, one after the other *)
Definition answered (rules : Z -> list (list item)) (u : item -> Prop) (first_of : item -> iset) : Prop :=
  (forall i, set_ok (first_of i)) /\ forall i, u i -> exists c fuel c', earlier rules u c /\ first rules fuel i c = Some (c', first_of i).
Definition first_by (rules : Z -> list (list item)) (fuel : nat) (i : item) : iset := match first rules fuel i [] with Some (_, s) => s | None => no_items end.

(** The full statement (FOLLOW(i) holds exactly what [comes_after i], for all grammars) is false. *)
(** FOLLOW sets contain the empty item, which is not a symbol: 0 -> 1 2, 2 -> t5 | (nothing). *)
Definition nts_empty : list (Z * list (list item)) := [(0, [[INonterm 1; INonterm 2]]); (1, [[ITerm 4]]); (2, [[ITerm 5]; []])].
Theorem C26_empty_refuted : exists nonterminals i s, follow (first_by (rules_of nonterminals) 9) nonterminals 9 i = Some s /\ In IEmpty s /\ ~ comes_after nonterminals i IEmpty.
Proof.
  exists nts_empty, (INonterm 1). eexists. split; [vm_compute; reflexivity|]. split; [left; reflexivity|]. intros H.
  assert (NS : forall i x, starts (rules_of nts_empty) i x -> x <> IEmpty).
  { intros i x S. induction S as [s S|i pre y post s B N S IH]; [intros ->; exact S|exact IH]. }
  assert (NA : forall i x, comes_after nts_empty i x -> x <> IEmpty).
  { intros i x A. induction A as [nt j post x Hp (p & y & q & -> & N & S)|nt j post x Hp N Hf IH|nt j post r x Hp N R B (p & y & q & -> & N2 & S)]; [eapply NS, S|exact IH|eapply NS, S]. }
  eapply NA; [exact H|reflexivity].
Qed.
Print Assumptions C26_empty_refuted.
(** A repetition's sequence is not followed by its own start: 0 -> (1)+ with 1 -> t4. *)
Definition nts_repeat : list (Z * list (list item)) := [(0, [[IEbnf Repeat [[INonterm 1]]]]); (1, [[ITerm 4]])].
Theorem C26_repeat_refuted : exists nonterminals i t s, follow (first_by (rules_of nonterminals) 9) nonterminals 9 i = Some s /\ comes_after nonterminals i (ITerm t) /\ ~ In (ITerm t) s.
Proof.
  exists nts_repeat, (INonterm 1), 4. eexists. split; [vm_compute; reflexivity|]. split; [|intros []].
  eapply after_again with (nt := IEbnf Repeat [[INonterm 1]]) (post := []) (r := [INonterm 1]).
  - eapply (in_ebnf _ (INonterm 0) Repeat [[INonterm 1]] [] [] (INonterm 1) []); [|left; reflexivity]. eapply (in_rule _ 0 _ []); [left; reflexivity|left; reflexivity].
  - constructor.
  - exact I.
  - exists []. reflexivity.
  - exists [], (INonterm 1), []. split; [reflexivity|]. split; [constructor|]. eapply (starts_body _ _ [] (ITerm 4) []); [left; reflexivity|constructor|constructor; exact I].
Qed.
Print Assumptions C26_repeat_refuted.
(** Terminals have no FOLLOW set: 0 -> t4 t5. *)
Theorem C26_terminal_refuted : exists nonterminals t t' s, follow (first_by (rules_of nonterminals) 9) nonterminals 9 (ITerm t) = Some s /\ comes_after nonterminals (ITerm t) (ITerm t') /\ s = [].
Proof.
  exists [(0, [[ITerm 4; ITerm 5]])], 4, 5. eexists. split; [vm_compute; reflexivity|]. split; [|reflexivity].
  eapply (after_next _ (INonterm 0) (ITerm 4) [ITerm 5]); [eapply (in_rule _ 0 _ []); [left; reflexivity|left; reflexivity]|]. exists [], (ITerm 5), []. split; [reflexivity|]. split; [constructor|constructor; exact I].
Qed.
Print Assumptions C26_terminal_refuted.

(** The computation ends for every grammar, left recursion and cycles included. *)
Theorem C26_ends : forall first_of nonterminals i, (forall j, set_ok (first_of j)) -> exists fuel0, forall fuel, (fuel0 <= fuel)%nat -> exists s, follow first_of nonterminals fuel i = Some s.
Proof. intros first_of nonterminals i FO. exact (follow_ends first_of FO nonterminals i). Qed.
Print Assumptions C26_ends.
(** For every grammar, and whatever the FIRST sets are, the answer is the least solution of the
    FOLLOW equations for these FIRST sets. *)
Theorem C26_relative_partial : forall first_of nonterminals fuel i s, (forall j, set_ok (first_of j)) -> follow first_of nonterminals fuel i = Some s -> forall x, In x s <-> follows nonterminals first_of i x.
Proof. intros first_of nonterminals fuel i s FO. exact (follow_exact first_of FO nonterminals fuel i s). Qed.
Print Assumptions C26_relative_partial.
(** The answer does not depend on how long it was let run. *)
Theorem C26_same : forall first_of nonterminals fuel fuel' i s s', (forall j, set_ok (first_of j)) -> follow first_of nonterminals fuel i = Some s -> follow first_of nonterminals fuel' i = Some s' -> forall x, In x s <-> In x s'.
Proof. intros first_of nonterminals fuel fuel' i s s' FO H H' x. rewrite (follow_exact first_of FO _ _ _ _ H), (follow_exact first_of FO _ _ _ _ H'). reflexivity. Qed.
Print Assumptions C26_same.
(** Missing: grammars outside the conditions of C25_exact_partial, repetitions, terminals, and the
    empty item as a member. *)
Theorem C26_exact_partial : forall nonterminals u rank first_of fuel i s, let rules := rules_of nonterminals in
  closed rules u -> plain_ebnf rules u -> no_empty_repeat u -> left_ranked rules u rank -> empty_rules_last rules u -> answered rules u first_of ->
  (forall nt j post k, position nonterminals nt j post -> In k post -> u k) -> no_repeats nonterminals -> (forall t, i <> ITerm t) ->
  follow first_of nonterminals fuel i = Some s -> forall x, x <> IEmpty -> In x s <-> comes_after nonterminals i x.
Proof.
  intros nonterminals u rank first_of fuel i s rules CU PE NR LR EL [FO AN] U NP NT. apply follow_textbook; try assumption.
  intros nt j post k P K. destruct (AN k (U _ _ _ _ P K)) as (c & f & c' & E & F). eapply earlier_first_exact; try eassumption. eapply U; eassumption.
Qed.
Print Assumptions C26_exact_partial.

(** 0 -> 1 2 t7 | t4, 1 -> t3 0, 2 -> t5 | (nothing) meets the conditions; FOLLOW(0) comes from
    FOLLOW(1). *)
Definition nts_ex : list (Z * list (list item)) := [(0, [[INonterm 1; INonterm 2; ITerm 7]; [ITerm 4]]); (1, [[ITerm 3; INonterm 0]]); (2, [[ITerm 5]; []])].
Definition nts_items : list item := [INonterm 0; INonterm 1; INonterm 2; ITerm 3; ITerm 4; ITerm 5; ITerm 7].
Definition nts_rank (i : item) : nat := match i with INonterm 0 => 2 | INonterm _ => 1 | _ => 0 end.
Lemma nts_bodies n r : In r (rules_of nts_ex n) -> (n = 0 /\ (r = [INonterm 1; INonterm 2; ITerm 7] \/ r = [ITerm 4])) \/ (n = 1 /\ r = [ITerm 3; INonterm 0]) \/ (n = 2 /\ (r = [ITerm 5] \/ r = [])).
Proof.
  unfold rules_of, nts_ex. cbn [filter fst]. destruct (Z.eqb_spec 0 n) as [<-|N0]; [cbn; intuition auto|]. destruct (Z.eqb_spec 1 n) as [<-|N1]; [cbn; intuition auto|]. destruct (Z.eqb_spec 2 n) as [<-|N2]; cbn; intuition auto.
Qed.
Definition nts_maybe (i : item) : Prop := match i with IEmpty | IEbnf _ _ | INonterm 2 => True | _ => False end.
Lemma nts_nullable i : nullable (rules_of nts_ex) i -> nts_maybe i.
Proof.
  apply (nullable_ind2 (rules_of nts_ex) nts_maybe (Forall nts_maybe)); try constructor; try assumption. clear i. intros i r B _ F.
  destruct i as [| | |t|n|p l|k rs]; cbn; try exact I; try (destruct B; fail). cbn [has_body] in B. apply nts_bodies in B.
  destruct B as [(-> & [-> | ->])|[(-> & ->)|(-> & [-> | ->])]]; try exact I; inversion F as [|? ? F1 F2]; exact F1.
Qed.
Lemma nts_position nt i post : position nts_ex nt i post -> (forall k rs, i <> IEbnf k rs) /\ forall k, In k (i :: post) -> In k nts_items.
Proof.
  intros P. induction P as [n rs pre i post Hn Hr|nt k rs after pre i post P IH Hr].
  - assert (B : In (pre ++ i :: post) (rules_of nts_ex n)).
    { apply in_concat. exists rs. split; [|exact Hr]. apply in_map_iff. exists (n, rs). split; [reflexivity|]. apply filter_In. split; [exact Hn|cbn; lia]. }
    assert (IN : forall k, In k (pre ++ i :: post) -> In k nts_items).
    { intros k K. apply nts_bodies in B. destruct B as [(_ & [E | E])|[(_ & E)|(_ & [E | E])]]; rewrite E in K; cbn in K; unfold nts_items; cbn [In]; intuition auto 10. }
    split; [|intros k K; apply IN, in_app_iff; right; exact K]. intros k rs' ->. assert (X : In (IEbnf k rs') nts_items) by (apply IN, in_elt). cbn in X. intuition discriminate.
  - exfalso. apply (proj1 IH k rs). reflexivity.
Qed.
Example C26_nontrivial : let u := fun i => In i nts_items in let rules := rules_of nts_ex in
  closed rules u /\ plain_ebnf rules u /\ no_empty_repeat u /\ left_ranked rules u nts_rank /\ empty_rules_last rules u /\ answered rules u (first_by rules 9) /\
  (forall nt j post k, position nts_ex nt j post -> In k post -> u k) /\ no_repeats nts_ex /\
  follow (first_by rules 9) nts_ex 9 (INonterm 0) = Some [IEmpty; ITerm 5; ITerm 7; INonterm 2].
Proof.
  cbn zeta. split; [|split; [|split; [|split; [|split; [|split; [|split; [|split]]]]]]].
  - intros i r j U B J. destruct i as [| | |t|n|p l|k rs]; try (destruct B; fail); [|cbn in U; intuition discriminate]. cbn [has_body] in B. apply nts_bodies in B.
    destruct B as [(_ & [-> | ->])|[(_ & ->)|(_ & [-> | ->])]]; cbn in J; unfold nts_items; cbn [In]; intuition auto 10.
  - intros k rs r U B. cbn in U. intuition discriminate.
  - intros rs U. cbn in U. intuition discriminate.
  - intros i pre y post U B N. assert (NN : Forall nts_maybe pre) by (clear B; induction pre; constructor; inversion N; subst; [apply nts_nullable; assumption|auto]). left.
    destruct i as [| | |t|n|p l|k rs]; try (destruct B; fail); [|cbn in U; intuition discriminate]. cbn [has_body] in B. apply nts_bodies in B.
    destruct B as [(-> & [E | E])|[(-> & E)|(-> & [E | E])]]; (destruct pre as [|a pre]; [cbn [app] in E; try discriminate E; injection E as -> _; cbn; lia|]); cbn [app] in E; try discriminate E; injection E as -> _; inversion NN as [|? ? F1 F2]; destruct F1.
  - intros n a r b i k c U E NR NI. assert (Bi : In (i :: k) (rules_of nts_ex n)) by (rewrite E; apply in_app_iff; right; right; apply in_elt).
    apply nts_bodies in Bi. apply nts_nullable in NI. destruct Bi as [(_ & [X | X])|[(_ & X)|(_ & [X | X])]]; try discriminate X; injection X as -> ->; destruct NI.
  - split.
    + intros i. unfold first_by. destruct (first (rules_of nts_ex) 9 i []) as [[c' s]|] eqn:E; [|constructor]. eapply (first_set_ok _ 9 i [] c' s); [split; [constructor|intros j t []]|exact E].
    + intros i U. exists [], 9%nat. unfold nts_items, In in U. repeat (destruct U as [<-|U]; [eexists; split; [constructor|vm_compute; reflexivity]|]). destruct U.
  - intros nt j post k P K. apply nts_position in P. apply P. right. exact K.
  - intros nt i post P R. apply nts_position in P. destruct i as [| | |t|n|p l|k rs]; try (destruct R; fail). eapply (proj1 P). reflexivity.
  - vm_compute. reflexivity.
Qed.
