(** C23, C51, C52: the order of items and rules and the identifiers of a grammar. *)
From Verif Require Import Base OrdMap GrammarModel GrammarSpec GrammarProofs.
Local Open Scope Z_scope.

(** C52: the operators < of items and of rules are strict total orders, and the operators ==
    hold exactly for items and rules of the same structure, which is when neither is less than
    the other. *)
Theorem C52_items : strict_total item_ltb /\ (forall a b, item_eqb a b = true <-> a = b) /\
  (forall a b, item_eqb a b = true <-> item_ltb a b = false /\ item_ltb b a = false).
Proof.
  split; [exact item_strict|]. split; [exact item_eqb_spec|]. intros a b. rewrite item_eqb_spec. split; [|intros [H1 H2]; exact (ltb_eq _ item_strict a b H1 H2)].
  intros ->. rewrite (st_irrefl _ item_strict). auto.
Qed.
Print Assumptions C52_items.
Theorem C52_rules : strict_total rule_ltb /\ (forall a b, rule_eqb a b = true <-> a = b) /\
  (forall a b, rule_eqb a b = true <-> rule_ltb a b = false /\ rule_ltb b a = false).
Proof.
  split; [exact rule_strict|]. split; [exact rule_eqb_spec|]. intros a b. rewrite rule_eqb_spec. split; [|intros [H1 H2]; exact (ltb_eq _ rule_strict a b H1 H2)].
  intros ->. rewrite (st_irrefl _ rule_strict). auto.
Qed.
Print Assumptions C52_rules.
Definition ex_item1 : item := IEbnf Alternative [[ITerm 1]; [INonterm 2; IEbnf Repeat [[ITerm 3]]]].
Definition ex_item2 : item := IEbnf Alternative [[ITerm 1]; [INonterm 2; IEbnf Repeat [[ITerm 4]]]].
Example C52_nontrivial : item_ltb ex_item1 ex_item2 = true /\ item_eqb ex_item1 ex_item2 = false /\ item_eqb ex_item1 ex_item1 = true /\
  rule_ltb (mkRule (INonterm 7) [ITerm 9]) (mkRule (INonterm 1) [ITerm 0; ITerm 0]) = true.
Proof. vm_compute. auto. Qed.

(** C23 for rules: whatever else was asked of the grammar, a rule that was given an identifier
    keeps it, the identifier leads back to the rule, and no two rules share one. *)
Theorem C23_rules : forall g log r id, after any_call g log -> In (ForRule r, id) log ->
  identifier_for_rule r g = (g, id) /\ rule_with_identifier id g = r /\ (forall r', In (ForRule r', id) log -> r' = r).
Proof.
  intros g log r id A H. destruct (rules_after _ _ _ A) as [N L]. pose proof (L _ _ H) as I. split; [|split].
  - apply identifier_for_rule_known; [exact I|apply N].
  - unfold rule_with_identifier. apply (nb_inv _ _ _ N) in I. rewrite (proj2 (mfind_in _ Zltb_strict _ (nb_back _ _ _ N) _ _) I). reflexivity.
  - intros r' H'. eapply numbering_inj; [exact N|apply L, H'|exact I].
Qed.
Print Assumptions C23_rules.
(** A new identifier is the number of identifiers given before it *)
Theorem C23_rules_dense : forall g log r, after any_call g log -> 0 <= snd (identifier_for_rule r g) <= Z.of_nat (length (rule_id g)).
Proof.
  intros g log r A. destruct (rules_after _ _ _ A) as [N L]. unfold identifier_for_rule. destruct (mfind rule_ltb r (rule_id g)) as [id|] eqn:F; cbn [snd]; [|lia].
  apply (mfind_in _ rule_strict) in F; [|apply N]. assert (0 <= id < Z.of_nat (length (rule_id g))) by (apply (nb_range _ _ _ N); eauto). lia.
Qed.
Print Assumptions C23_rules_dense.

(** C23 for items and names fails when a nonterminal is looked up with a number that the grammar
    did not give to a name: two names then get the same identifier. *)
Definition bad_lookups : list id_call :=
  [ForItem (INonterm 3); ForName [97]; ForName [98]; ForName [99]].
Definition run_calls (cs : list id_call) : ids * list (id_call * Z) :=
  fold_left (fun '(g, log) c => (fst (perform c g), (c, snd (perform c g)) :: log)) cs (no_ids, []).
Theorem C23_names_refuted : exists g log n n' id, after any_call g log /\
  In (ForName n, id) log /\ In (ForName n', id) log /\ n <> n'.
Proof.
  exists (fst (run_calls bad_lookups)), (snd (run_calls bad_lookups)), [98], [99], 3. split.
  - unfold bad_lookups, run_calls. cbn [fold_left fst snd]. repeat (apply after_call; [|exact I]). apply after_new.
  - vm_compute. split; [|split]; [auto 10|auto 10|discriminate].
Qed.
Print Assumptions C23_names_refuted.

(** Otherwise it holds.  Missing for the full statement: histories in which identifier_for_item is
    asked for a nonterminal whose number the grammar has not given to any name. *)
Theorem C23_items_partial : forall g log i id, after issued_nonterminals g log -> In (ForItem i, id) log ->
  identifier_for_item i g = (g, id) /\ item_with_identifier id g = i /\ (forall i', In (ForItem i', id) log -> i' = i).
Proof.
  intros g log i id A H. destruct (items_after _ _ A) as [N NT SN SB IV IT LI LN]. pose proof (LI _ _ H) as I. split; [|split].
  - apply identifier_for_item_known; [exact I|apply N].
  - unfold item_with_identifier. apply (nb_inv _ _ _ N) in I. rewrite (proj2 (mfind_in _ Zltb_strict _ (nb_back _ _ _ N) _ _) I). reflexivity.
  - intros i' H'. eapply numbering_inj; [exact N|apply LI, H'|exact I].
Qed.
Print Assumptions C23_items_partial.
(** A nonterminal's number is also the identifier of the item for it. *)
Theorem C23_names_partial : forall g log n id, after issued_nonterminals g log -> In (ForName n, id) log ->
  id_for_nonterminal n g = (g, id) /\ name_for_nonterminal id g = n /\ nonterminal_is_defined n g = true /\
  (forall n', In (ForName n', id) log -> n' = n) /\ identifier_for_item (INonterm id) g = (g, id) /\ item_with_identifier id g = INonterm id.
Proof.
  intros g log n id A H. destruct (items_after _ _ A) as [N NT SN SB IV IT LI LN]. pose proof (LN _ _ H) as I. pose proof (IT _ _ I) as J.
  pose proof (proj1 (IV _ _) I) as B. split; [|split; [|split; [|split; [|split]]]].
  - apply id_for_nonterminal_known; assumption.
  - unfold name_for_nonterminal. rewrite (proj2 (mfind_in _ Zltb_strict _ SB _ _) B). reflexivity.
  - unfold nonterminal_is_defined. rewrite (proj2 (mfind_in _ name_strict _ SN _ _) I). reflexivity.
  - intros n' H'. apply LN, IV in H'. eapply (msorted_unique _ Zltb_strict); eassumption.
  - apply identifier_for_item_known; [exact J|apply N].
  - unfold item_with_identifier. apply (nb_inv _ _ _ N) in J. rewrite (proj2 (mfind_in _ Zltb_strict _ (nb_back _ _ _ N) _ _) J). reflexivity.
Qed.
Print Assumptions C23_names_partial.
Definition ex_calls : list id_call :=
  [ForName [97]; ForItem (ITerm 4); ForItem (INonterm 1); ForRule (mkRule (INonterm 1) [ITerm 4]); ForName [98]; ForItem (ITerm 4); ForItem ex_item1; ForName [97]; ForRule (mkRule (INonterm 1) [])].
Example C23_nontrivial : after issued_nonterminals (fst (run_calls ex_calls)) (snd (run_calls ex_calls)) /\
  map snd (rev (snd (run_calls ex_calls))) = [1; 2; 1; 0; 3; 2; 4; 1; 1].
Proof.
  split; [|vm_compute; reflexivity]. unfold ex_calls, run_calls. cbn [fold_left fst snd].
  repeat (apply after_call; [|first [exact I|exists [97]; vm_compute; auto 10]]). apply after_new.
Qed.

(** C51: the identifier that a rule object reports is the one its grammar gives to the rule it
    holds.  This fails when an item is appended after the identifier was asked for. *)
Theorem C51_append_refuted : exists o g i, let '(o, g, _) := rule_identifier 0 o g in
  snd (rule_identifier 0 (append_item i o) g) <> snd (identifier_for_rule (content (append_item i o)) g) /\
  rule_with_identifier (snd (rule_identifier 0 (append_item i o) g)) g <> content (append_item i o).
Proof. exists (new_rule (INonterm 1)), no_ids, (ITerm 5). vm_compute. split; discriminate. Qed.
Print Assumptions C51_append_refuted.
(** It holds for a rule that is complete when it is first identified, however many grammars it is
    shared by.  Missing: appending to an identified rule; a grammar created at the address of one
    that was destroyed. *)
Theorem C51_complete_rules_partial : forall nt items gs calls a, (forall b, exists log, after any_call (gs b) log) ->
  let w := world_after calls (mkWorld (built_rule nt items) gs) in
  content (object w) = mkRule nt items /\
  snd (rule_identifier a (object w) (grammars w a)) = snd (identifier_for_rule (mkRule nt items) (grammars w a)).
Proof.
  intros nt items gs calls a G. destruct (built_rule_spec nt items) as [E1 E2].
  assert (OK : cache_ok (mkWorld (built_rule nt items) gs)).
  { split; cbn [grammars object]; [|rewrite E2; exact I]. intros b. destruct (G b) as [log A]. apply (rules_after _ _ _ A). }
  destruct (world_after_ok calls _ OK) as [OK2 C]. cbn [object] in C. rewrite E1 in C. cbn zeta. split; [exact C|]. rewrite rule_identifier_ok by exact OK2. rewrite C. reflexivity.
Qed.
Print Assumptions C51_complete_rules_partial.
Example C51_nontrivial :
  let w := world_after [Other 1 (ForRule (mkRule (INonterm 1) [])); Identify 0; Identify 1; Other 0 (ForName [97])] (mkWorld (built_rule (INonterm 1) [ITerm 2; ITerm 3]) (fun _ => no_ids)) in
  cached (object w) = Some (1%nat, 1) /\ snd (rule_identifier 0 (object w) (grammars w 0)) = 0 /\ snd (rule_identifier 1 (object w) (grammars w 1)) = 1.
Proof. vm_compute. auto. Qed.
