(** Proofs about the parser tables in generated source. *)
From Verif Require Import Base BinSearch ActionModel TableModel EmitModel EmitSpec.
Local Open Scope Z_scope.

Lemma write_rows_nth rows : forall pos q r, nth_error rows q = Some r ->
  exists from, nth_error (write_rows pos rows) q = Some from /\ (from = pos + length (write_data (firstn q rows)))%nat.
Proof.
  induction rows as [|a rows IH]; intros pos [|q] r E; cbn [nth_error write_rows firstn] in *; try discriminate.
  - exists pos. split; [reflexivity|]. cbn. lia.
  - destruct (IH (pos + length a)%nat q r E) as (from & F & L). exists from. split; [exact F|].
    unfold write_data in *. cbn [flat_map]. rewrite app_length, map_length. lia.
Qed.
Lemma write_rows_length rows : forall pos, length (write_rows pos rows) = length rows.
Proof. induction rows as [|a rows IH]; intros pos; cbn; [reflexivity|]. rewrite IH. reflexivity. Qed.
Lemma write_data_split rows q r : nth_error rows q = Some r ->
  write_data rows = write_data (firstn q rows) ++ map raw_of r ++ write_data (skipn (S q) rows).
Proof.
  unfold write_data. revert q. induction rows as [|a rows IH]; intros [|q] E; cbn [nth_error firstn skipn flat_map] in *; try discriminate.
  - injection E as ->. reflexivity.
  - rewrite (IH q E), <- app_assoc. reflexivity.
Qed.
Lemma slice_middle {A} (a b c : list A) : slice (a ++ b ++ c) (length a) (Z.of_nat (length b)) = Some b.
Proof.
  unfold slice. rewrite !app_length. replace ((0 <=? Z.of_nat (length b)) && (Z.of_nat (length a) + Z.of_nat (length b) <=? Z.of_nat (length a + (length b + length c)))) with true by lia.
  rewrite Nat2Z.id, skipn_app, skipn_all, Nat.sub_diag. cbn [skipn app]. rewrite firstn_app, firstn_all, Nat.sub_diag. cbn [firstn]. rewrite app_nil_r. reflexivity.
Qed.
Lemma slice_all {A} (a : list A) : slice a 0 (Z.of_nat (length a)) = Some a.
Proof. pose proof (slice_middle (@nil A) a []) as H. rewrite app_nil_r in H. exact H. Qed.

Lemma row_slice rows q r : nth_error rows q = Some r ->
  exists from, nth_error (write_rows 0 rows) q = Some from /\ slice (write_data rows) from (Z.of_nat (length r)) = Some (map raw_of r).
Proof.
  intros E. destruct (write_rows_nth rows 0 q r E) as (from & F & L). exists from. split; [exact F|].
  rewrite (write_data_split rows q r E), L, <- (map_length raw_of r). apply slice_middle.
Qed.
Lemma write_counts_nth t q : (q < length (t_terminals t))%nat ->
  nth_error (write_counts t) q = Some (Z.of_nat (length (nth q (t_terminals t) [])), Z.of_nat (length (nth q (t_nonterminals t) []))).
Proof.
  intros L. unfold write_counts. rewrite nth_error_map. rewrite (nth_error_nth' _ 0%nat) by (rewrite seq_length; exact L). rewrite seq_nth by exact L. reflexivity.
Qed.
Lemma lower_bound_loop_ext f g : (forall i, f i = g i) -> forall fuel first len, lower_bound_loop fuel f first len = lower_bound_loop fuel g first len.
Proof.
  intros E. induction fuel as [|fuel IH]; intros first len; cbn [lower_bound_loop]; [reflexivity|]. destruct len; [reflexivity|]. rewrite E, !IH. reflexivity.
Qed.
Lemma raw_find_map symbol l : raw_find symbol (map raw_of l) = map raw_of (find_action symbol l).
Proof.
  unfold raw_find, find_action, find_pos. rewrite map_length, <- skipn_map. f_equal. apply lower_bound_loop_ext. intros i.
  change no_raw with (raw_of no_entry). rewrite map_nth. reflexivity.
Qed.
Lemma raw_of_injective a b : raw_of a = raw_of b -> a = b.
Proof. destruct a as [a1 a2 a3], b as [b1 b2 b3]. unfold raw_of; cbn. intros E. injection E as E1 E2 E3. subst. destruct a1, b1; try discriminate; reflexivity. Qed.

Lemma emit_same_lemma t : length (t_nonterminals t) = length (t_terminals t) -> same_tables (emit t) t.
Proof.
  intros LN. constructor; try reflexivity.
  - intros q s. unfold object_terminal, find_terminal, row, at_index, emit; cbn [em_terminal_rows em_counts em_terminal_data].
    destruct (q <? 0); [reflexivity|]. destruct (nth_error (t_terminals t) (Z.to_nat q)) as [r|] eqn:E.
    + destruct (row_slice _ _ _ E) as (from & F & SL). rewrite F.
      assert (L : (Z.to_nat q < length (t_terminals t))%nat) by (apply nth_error_Some; congruence).
      rewrite (write_counts_nth t _ L). cbn [fst]. rewrite (nth_error_nth _ _ [] E), SL. cbn [option_map]. rewrite raw_find_map. reflexivity.
    + apply nth_error_None in E. rewrite (proj2 (nth_error_None _ _)) by (rewrite write_rows_length; exact E). reflexivity.
  - intros q s. unfold object_nonterminal, find_nonterminal, row, at_index, emit; cbn [em_nonterminal_rows em_counts em_nonterminal_data].
    destruct (q <? 0); [reflexivity|]. destruct (nth_error (t_nonterminals t) (Z.to_nat q)) as [r|] eqn:E.
    + destruct (row_slice _ _ _ E) as (from & F & SL). rewrite F.
      assert (L : (Z.to_nat q < length (t_terminals t))%nat) by (rewrite <- LN; apply nth_error_Some; congruence).
      rewrite (write_counts_nth t _ L). cbn [snd]. rewrite (nth_error_nth _ _ [] E), SL. cbn [option_map]. rewrite raw_find_map. reflexivity.
    + apply nth_error_None in E. rewrite (proj2 (nth_error_None _ _)) by (rewrite write_rows_length; exact E). reflexivity.
  - intros q. unfold object_guard, emit; cbn [em_guards em_num_guards]. rewrite slice_all. reflexivity.
  - intros w. unfold object_strong, strong_for_weak, emit; cbn [em_weak em_num_weak]. rewrite slice_all.
    destruct (Z.eqb_spec (Z.of_nat (length (t_weak t))) 0) as [E|E]; [|reflexivity]. destruct (t_weak t); [reflexivity|cbn in E; lia].
  - intros n. unfold object_rule, rule_at, at_index, emit; cbn [em_rules]. destruct (n <? 0); [reflexivity|]. rewrite nth_error_map. reflexivity.
Qed.

Section Made.
  Context (rid : GrammarModel.rule -> Z) (rule_of : Z -> GrammarModel.rule) (ident : GrammarModel.item -> Z) (sort : list entry -> list entry) (sort_weak : list (Z * Z) -> list (Z * Z)).
  Lemma fill_states_lengths actss : forall q ids eogs tss nss ids' eogs',
    fill_states rid ident sort q actss ids eogs = (tss, nss, ids', eogs') -> length tss = length actss /\ length nss = length actss.
  Proof.
    induction actss as [|acts actss IH]; intros q ids eogs tss nss ids' eogs' E; cbn [fill_states] in E.
    - injection E as <- <- _ _. auto.
    - destruct (fill rid ident q acts ids eogs) as [[[ts ns] i1] e1]. destruct (fill_states rid ident sort (q + 1) actss i1 e1) as [[[tss' nss'] i2] e2] eqn:F.
      injection E as <- <- _ _. destruct (IH _ _ _ _ _ _ _ F) as [A B]. cbn. auto.
  Qed.
  Lemma make_tables_lengths actss weak : let t := make_tables rid rule_of ident sort sort_weak actss weak in
    length (t_terminals t) = length actss /\ length (t_nonterminals t) = length (t_terminals t).
  Proof.
    unfold make_tables. destruct (fill_states rid ident sort 0 actss [] []) as [[[tss nss] ids] eogs] eqn:F. cbn. destruct (fill_states_lengths _ _ _ _ _ _ _ _ F) as [A B]. split; congruence.
  Qed.
End Made.
