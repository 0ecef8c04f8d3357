(** C25: FIRST sets. *)
From Verif Require Import Base OrdMap GrammarModel GrammarProofs FirstModel FirstSpec FirstProofs.
Local Open Scope Z_scope.

(** The full statement (FIRST(i) is [first_set i], for all grammars and items) is false. *)
(** A nonterminal with an empty rule loses the empty item when a later rule starts with an item
    that may be empty: 0 -> (nothing) | 1 t5, 1 -> (nothing). *)
Definition rules_erase (n : Z) : list (list item) := if n =? 0 then [[]; [INonterm 1; ITerm 5]] else if n =? 1 then [[]] else [].
Theorem C25_empty_refuted : exists rules n c s, first rules 5 (INonterm n) [] = Some (c, s) /\ nullable rules (INonterm n) /\ ~ In IEmpty s.
Proof.
  exists rules_erase, 0. eexists _, _. split; [vm_compute; reflexivity|]. split; [|cbn; intuition discriminate].
  eapply null_body; [left; reflexivity|constructor].
Qed.
Print Assumptions C25_empty_refuted.
(** Left recursion of a nonterminal that may be empty: 0 -> 0 t5 | (nothing) misses t5. *)
Definition rules_left (n : Z) : list (list item) := if n =? 0 then [[INonterm 0; ITerm 5]; []] else [].
Theorem C25_left_recursion_refuted : exists rules n c s t, first rules 5 (INonterm n) [] = Some (c, s) /\ starts rules (INonterm n) (ITerm t) /\ ~ In (ITerm t) s.
Proof.
  exists rules_left, 0. eexists _, _, 5. split; [vm_compute; reflexivity|]. split; [|cbn; intuition discriminate].
  eapply (starts_body _ _ [INonterm 0] (ITerm 5) []); [left; reflexivity| |constructor; exact I].
  constructor; [|constructor]. eapply null_body; [right; left; reflexivity|constructor].
Qed.
Print Assumptions C25_left_recursion_refuted.
(** Mutual left recursion without empty rules, 0 -> 1 t5 | t6, 1 -> 0 t7 | t8: once FIRST(0) was
    asked for, the answer for FIRST(1) stays incomplete. *)
Definition rules_mutual (n : Z) : list (list item) :=
  if n =? 0 then [[INonterm 1; ITerm 5]; [ITerm 6]] else if n =? 1 then [[INonterm 0; ITerm 7]; [ITerm 8]] else [].
Theorem C25_mutual_recursion_refuted : exists rules c c' s s' t, first rules 5 (INonterm 0) [] = Some (c, s) /\ first rules 5 (INonterm 1) c = Some (c', s') /\
  starts rules (INonterm 1) (ITerm t) /\ ~ In (ITerm t) s'.
Proof.
  exists rules_mutual. eexists _, _, _, _, 6. split; [vm_compute; reflexivity|]. split; [vm_compute; reflexivity|]. split; [|cbn; intuition discriminate].
  eapply (starts_body _ _ [] (INonterm 0) [ITerm 7]); [left; reflexivity|constructor|]. eapply (starts_body _ _ [] (ITerm 6) []); [right; left; reflexivity|constructor|constructor; exact I].
Qed.
Print Assumptions C25_mutual_recursion_refuted.
(** EBNF items look at the first item of a sequence only: (t1? t2)+ is said to be possibly empty
    and never to start with t2. *)
Definition ebnf_prefix : item := IEbnf Repeat [[IEbnf Optional [[ITerm 1]]; ITerm 2]].
Theorem C25_ebnf_refuted : exists c s, first (fun _ => []) 5 ebnf_prefix [] = Some (c, s) /\ In IEmpty s /\ ~ nullable (fun _ => []) ebnf_prefix /\
  starts (fun _ => []) ebnf_prefix (ITerm 2) /\ ~ In (ITerm 2) s.
Proof.
  eexists _, _. split; [vm_compute; reflexivity|]. split; [left; reflexivity|]. split; [|split].
  - intros N. inversion N as [| | |i r B NN]; subst. destruct B as [rs E]. injection E as <- <-. inversion NN as [|? ? _ N2]; subst. inversion N2 as [|? ? N3 _]; subst. inversion N3 as [| | |? ? B _]; subst. destruct B.
  - eapply (starts_body _ _ [IEbnf Optional [[ITerm 1]]] (ITerm 2) []); [exists []; reflexivity| |constructor; exact I]. repeat constructor.
  - cbn. intuition discriminate.
Qed.
Print Assumptions C25_ebnf_refuted.

(** FIRST always ends, for every finite grammar: a recursion depth of one more than the number of
    items is enough, whatever was asked before. *)
Theorem C25_ends : forall rules u c i fuel, closed rules (fun i => In i u) -> earlier rules (fun i => In i u) c -> In i u -> (length u < fuel)%nat ->
  exists c' s, first rules fuel i c = Some (c', s).
Proof.
  intros rules u c i fuel CL E U F. destruct (first_ends rules u fuel CL i c U) as (c' & s & H & _); [eapply earlier_sorted, E| |eauto].
  unfold missing. assert (L : forall (f : item -> bool) l, (length (filter f l) <= length l)%nat). { clear. intros f l. induction l as [|a l IH]; cbn; [lia|]. destruct (f a); cbn; lia. } specialize (L (fun i => match mfind item_ltb i c with None => true | Some _ => false end) u). lia.
Qed.
Print Assumptions C25_ends.
(** An answer, once given, stays the same whatever is asked later (until the caches are
    cleared). *)
Theorem C25_stable : forall rules u c c' c'' fuel fuel' i s, earlier rules u c -> first rules fuel i c = Some (c', s) -> later rules u c' c'' -> (0 < fuel')%nat -> first rules fuel' i c'' = Some (c'', s).
Proof.
  intros rules u c c' c'' fuel fuel' i s E H L F. apply earlier_sorted in E. assert (M : msorted item_ltb c'' /\ mfind item_ltb i c'' = Some s).
  { induction L as [|d f j d' t L IH U D]; [split; [eapply first_sorted; eassumption|eapply first_cached; eassumption]|]. destruct IH as [S M]. split; [eapply first_sorted; eassumption|eapply first_stable; eassumption]. }
  destruct fuel' as [|fuel']; [lia|]. cbn [first]. rewrite (proj2 M). reflexivity.
Qed.
Print Assumptions C25_stable.
(** What FIRST reports is right, for every grammar whose EBNF items are plain: left recursion,
    empty rules and earlier calls do not matter.  Missing for the full statement: other EBNF items
    (refuted above) and completeness (below). *)
Theorem C25_sound_partial : forall rules u c fuel i c' s, closed rules u -> plain_ebnf rules u -> earlier rules u c -> u i -> first rules fuel i c = Some (c', s) -> first_sound rules i s.
Proof.
  intros rules u c fuel i c' s CU PE E U H. assert (C : cache_sound rules c).
  { clear H U i c' s. induction E as [|c f i c' s E IH U H]; [constructor; [constructor|intros i s []]|]. eapply first_is_sound; eassumption. }
  eapply first_is_sound; eassumption.
Qed.
Print Assumptions C25_sound_partial.
(** FIRST is exact for grammars with plain EBNF items, without left recursion other than direct
    left recursion of nonterminals that cannot be empty, and where rules that can be empty do not
    come before rules that only start with something that can.  Missing: the grammars refuted
    above. *)
Theorem C25_exact_partial : forall rules u rank c fuel i c' s, closed rules u -> plain_ebnf rules u -> no_empty_repeat u -> left_ranked rules u rank -> empty_rules_last rules u ->
  earlier rules u c -> u i -> first rules fuel i c = Some (c', s) -> first_set rules i s.
Proof.
  intros rules u rank c fuel i c' s CU PE NR LR EL E U H. eapply earlier_first_exact; eassumption.
Qed.
Print Assumptions C25_exact_partial.
(** The same for first_for_rule and sequences of items *)
Theorem C25_rule_exact_partial : forall rules u rank c fuel l c' s, closed rules u -> plain_ebnf rules u -> no_empty_repeat u -> left_ranked rules u rank -> empty_rules_last rules u ->
  earlier rules u c -> (forall i, In i l -> u i) -> first_for_rule rules fuel l c = Some (c', s) -> first_set_of rules l s.
Proof.
  intros rules u rank c fuel l c' s CU PE NR LR EL E U H. destruct l as [|i l].
  - cbn in H. injection H as <- <-. intros x. cbn. split; [intros [<-|[]]; left; split; [reflexivity|constructor]|]. intros [[-> _]|(p & y & q & E' & _)]; [auto|destruct p; discriminate E'].
  - eapply (first_for_items_exact rules u CU PE NR rank LR EL fuel (i :: l) [] c [] c' s); try eassumption.
    + constructor.
    + eapply earlier_exact; eassumption.
    + constructor.
    + intros x Hn. split; [intros []|]. intros (p & y & q & E' & _). destruct p; discriminate E'.
    + discriminate.
Qed.
Print Assumptions C25_rule_exact_partial.

(** An expression grammar with argument lists meets the conditions:
    0 -> 0 t1 1 | 1, 1 -> 1 t2 2 | 2, 2 -> t3 0 t4 | t5 t3 3 t4, 3 -> 0 (t6 0)* | (nothing). *)
Definition ex_list : item := IEbnf RepeatZero [[ITerm 6; INonterm 0]].
Definition ex_rules (n : Z) : list (list item) :=
  if n =? 0 then [[INonterm 0; ITerm 1; INonterm 1]; [INonterm 1]]
  else if n =? 1 then [[INonterm 1; ITerm 2; INonterm 2]; [INonterm 2]]
  else if n =? 2 then [[ITerm 3; INonterm 0; ITerm 4]; [ITerm 5; ITerm 3; INonterm 3; ITerm 4]]
  else if n =? 3 then [[INonterm 0; ex_list]; []] else [].
Definition ex_items : list item := [INonterm 0; INonterm 1; INonterm 2; INonterm 3; ex_list; ITerm 1; ITerm 2; ITerm 3; ITerm 4; ITerm 5; ITerm 6].
Definition ex_rank (i : item) : nat := match i with INonterm 0 => 3 | INonterm 1 => 2 | INonterm 2 => 1 | INonterm 3 => 4 | IEbnf _ _ => 5 | _ => 0 end.
Definition ex_maybe (i : item) : Prop := match i with IEmpty | IEbnf _ _ | INonterm 3 => True | _ => False end.
Lemma ex_bodies n r : In r (ex_rules n) ->
  (n = 0 /\ (r = [INonterm 0; ITerm 1; INonterm 1] \/ r = [INonterm 1])) \/ (n = 1 /\ (r = [INonterm 1; ITerm 2; INonterm 2] \/ r = [INonterm 2])) \/
  (n = 2 /\ (r = [ITerm 3; INonterm 0; ITerm 4] \/ r = [ITerm 5; ITerm 3; INonterm 3; ITerm 4])) \/ (n = 3 /\ (r = [INonterm 0; ex_list] \/ r = [])).
Proof.
  unfold ex_rules. destruct (Z.eqb_spec n 0) as [->|]; [|destruct (Z.eqb_spec n 1) as [->|]; [|destruct (Z.eqb_spec n 2) as [->|]; [|destruct (Z.eqb_spec n 3) as [->|]]]]; cbn [In]; intuition auto.
Qed.
Lemma ex_nullable i : nullable ex_rules i -> ex_maybe i.
Proof.
  apply (nullable_ind2 ex_rules ex_maybe (Forall ex_maybe)); try constructor; try assumption. clear i. intros i r B _ F.
  destruct i as [| | |t|n|p l|k rs]; cbn; try exact I; try (destruct B; fail). cbn [has_body] in B. apply ex_bodies in B.
  destruct B as [(-> & [-> | ->])|[(-> & [-> | ->])|[(-> & [-> | ->])|(-> & [-> | ->])]]]; try exact I; inversion F as [|? ? F1 F2]; exact F1.
Qed.
Example C25_nontrivial : let u := fun i => In i ex_items in
  closed ex_rules u /\ plain_ebnf ex_rules u /\ no_empty_repeat u /\ left_ranked ex_rules u ex_rank /\ empty_rules_last ex_rules u /\
  exists c c' s, first ex_rules 12 (INonterm 0) [] = Some (c, s) /\
  first ex_rules 12 (INonterm 3) c = Some (c', [IEmpty; ITerm 3; ITerm 5; INonterm 0; INonterm 1; INonterm 2; INonterm 3]).
Proof.
  cbn zeta. split; [|split; [|split; [|split; [|split]]]].
  - intros i r j U B J. unfold ex_items, In in U. repeat (destruct U as [U|U]; [subst i; cbn [has_body] in B; try (destruct B; fail)|]); [..|destruct U].
    1-4: apply ex_bodies in B; destruct B as [(E & [-> | ->])|[(E & [-> | ->])|[(E & [-> | ->])|(E & [-> | ->])]]]; try discriminate E; cbn in J; unfold ex_items; cbn [In]; intuition auto.
    destruct B as [rs E]. injection E as <- <-. cbn in J. unfold ex_items. cbn [In]. intuition auto 20.
  - intros k rs r U B. unfold ex_items, In in U. repeat (destruct U as [U|U]; [try discriminate U|]); [|destruct U]. injection U as <- <-. destruct B as [rs' E]. injection E as <- _. intros N. apply ex_nullable in N. exact N.
  - intros rs U. unfold ex_items, In in U. repeat (destruct U as [U|U]; [discriminate U|]). destruct U.
  - intros i pre y post U B N. assert (NN : Forall ex_maybe pre) by (clear B; induction pre; constructor; inversion N; subst; [apply ex_nullable; assumption|auto]).
    assert (CASES : forall r, has_body ex_rules i r -> match r with a :: b :: c => (~ ex_maybe a /\ ((ex_rank a < ex_rank i)%nat \/ a = i /\ ~ ex_maybe i)) | [a] => (ex_rank a < ex_rank i)%nat | [] => True end).
    { clear -U. intros r B. unfold ex_items, In in U. repeat (destruct U as [U|U]; [subst i; cbn [has_body] in B; try (destruct B; fail)|]); [..|destruct U].
      1-4: apply ex_bodies in B; destruct B as [(E & [-> | ->])|[(E & [-> | ->])|[(E & [-> | ->])|(E & [-> | ->])]]]; try discriminate E; cbn; intuition (auto; lia).
      destruct B as [rs E]. injection E as <- <-. cbn. split; [tauto|]. left. lia. }
    specialize (CASES _ B). destruct pre as [|a pre].
    + cbn [app] in CASES. destruct post as [|b post]; [left; exact CASES|]. destruct CASES as [_ [L|[-> M]]]; [left; exact L|]. right. split; [reflexivity|]. intros NY. apply M, ex_nullable, NY.
    + exfalso. cbn [app] in CASES. assert (M : ex_maybe a) by (inversion NN; assumption). destruct (pre ++ y :: post) eqn:EP; [destruct pre; discriminate EP|]. destruct CASES as [X _]. contradiction.
  - intros n a r b i k c U E NR NI. assert (Bi : In (i :: k) (ex_rules n)) by (rewrite E; apply in_app_iff; right; right; apply in_elt).
    apply ex_bodies in Bi. apply ex_nullable in NI. destruct Bi as [(_ & [X | X])|[(_ & [X | X])|[(_ & [X | X])|(_ & [X | X])]]]; try discriminate X; injection X as -> ->; destruct NI.
  - eexists _, _, _. split; [vm_compute; reflexivity|vm_compute; reflexivity].
Qed.
