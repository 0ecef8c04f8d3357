(** C69: the parser tables in generated source. *)
From Verif Require Import Base GrammarModel ActionModel TableModel EmitModel EmitSpec EmitProofs RunModel RunSpec RunTool RunProps.
Local Open Scope Z_scope.

(** The object the generated source makes answers every question about states, symbols, guards, weak
    symbols and rules as the tables of the parser generator do, and reads outside its arrays only where
    those would. *)
Theorem C69_tables : forall rid rule_of ident sort sort_weak actss weak,
  let t := make_tables rid rule_of ident sort sort_weak actss weak in same_tables (emit t) t.
Proof. intros. apply emit_same_lemma. apply make_tables_lengths. Qed.
Print Assumptions C69_tables.

(** No two actions are written in the same way. *)
Theorem C69_entries : forall a b, raw_of a = raw_of b -> a = b.
Proof. exact raw_of_injective. Qed.
Print Assumptions C69_entries.

(** The arrays of a language with guards, weak symbols, rules and at least one action of each kind are
    C++. *)
Theorem C69_arrays_partial : forall t, length (t_nonterminals t) = length (t_terminals t) ->
  (exists r, In r (t_terminals t) /\ r <> []) -> (exists r, In r (t_nonterminals t) /\ r <> []) -> t_guards t <> [] -> t_rules t <> [] -> t_weak t <> [] ->
  arrays_nonempty (emit t).
Proof.
  intros t LN (r & R1 & R2) (r' & R1' & R2') G U W. unfold arrays_nonempty, emit. cbn.
  assert (D : forall rows r, In r rows -> r <> [] -> write_data rows <> []).
  { intros rows x I N E. unfold write_data in E. destruct x as [|e x]; [congruence|]. assert (X : In (raw_of e) (flat_map (map raw_of) rows)) by (apply in_flat_map; exists (e :: x); cbn; auto). rewrite E in X. destruct X. }
  assert (Q : forall rows r, In r rows -> write_rows 0 rows <> []) by (intros [|x rows] y I; [destruct I|discriminate]).
  repeat split; auto; try (eapply D; eassumption); try (eapply Q; eassumption).
  - unfold write_counts. destruct (t_terminals t) as [|x l]; [destruct R1|]. discriminate.
  - destruct (t_rules t); [congruence|discriminate].
Qed.
Print Assumptions C69_arrays_partial.

(** The grammar of C37_nontrivial: expressions with a sum and parentheses.  It has no guards and no weak
    symbols, so that two of its arrays have an empty initialiser. *)
Example C69_nontrivial : exists m guards actss, tool nts_expr items_expr [INonterm 0] = Some (m, guards, actss) /\
  let t := tool_tables nts_expr items_expr [INonterm 0] actss [] in
  same_tables (emit t) t /\ em_terminal_rows (emit t) = [0; 2; 4; 6; 7; 9; 11; 13; 15]%nat /\ em_states (emit t) = 9 /\
  object_terminal (emit t) 0 4 = Some [(0, 1, 4); (0, 2, 6)] /\ object_nonterminal (emit t) 9 0 = None.
Proof.
  destruct (tool nts_expr items_expr [INonterm 0]) as [[[m g] a]|] eqn:E; [|vm_compute in E; discriminate E]. exists m, g, a. split; [reflexivity|]. cbv zeta. split; [apply C69_tables|].
  vm_compute in E. injection E as <- <- <-. vm_compute. auto.
Qed.
Theorem C69_arrays_refuted : exists nts us m guards actss, tool nts us [INonterm 0] = Some (m, guards, actss) /\
  let t := tool_tables nts us [INonterm 0] actss [] in em_guards (emit t) = [] /\ em_weak (emit t) = [] /\ ~ arrays_nonempty (emit t).
Proof.
  exists nts_expr, items_expr. destruct (tool nts_expr items_expr [INonterm 0]) as [[[m g] a]|] eqn:E; [|vm_compute in E; discriminate E]. exists m, g, a. split; [reflexivity|]. cbv zeta.
  vm_compute in E. injection E as <- <- <-. split; [reflexivity|]. split; [reflexivity|]. intros (_ & _ & _ & _ & _ & X & _). apply X. reflexivity.
Qed.
Print Assumptions C69_arrays_refuted.
