(** Properties C31, C47 and C56: parser tables. *)
From Verif Require Import Base OrdMap BinSearch GrammarModel GrammarProofs FirstModel FirstProofs LrItemModel LrItemProofs MachineModel ActionModel TableModel TableProofs.
From Coq Require Import Permutation Sorted.
Local Open Scope Z_scope.

(** What fits in the tables: next states in 24 bits, at most 2^24 rules, and rule_with_identifier finds the
    rules that are reduced. *)
Record fits (rid : rule -> Z) (rule_of : Z -> rule) (actss : list action_set) : Prop := {
  fi_next : forall acts a, In acts actss -> In a acts -> is_reduction (a_type a) = false -> 0 <= a_next a < 2 ^ 24;
  fi_rules : exists rs, Z.of_nat (length rs) <= 2 ^ 24 /\ forall acts a, In acts actss -> In a acts -> is_reduction (a_type a) = true -> In (a_rule a) rs;
  fi_known : forall acts a, In acts actss -> In a acts -> is_reduction (a_type a) = true -> rule_of (rid (a_rule a)) = a_rule a }.
(** An entry says the same as an action: the same type and the same next state or, for a reduction, the
    number of a table entry with the nonterminal, the identifier and the length of the rule. *)
Definition describes (rid : rule -> Z) (ident : item -> Z) (t : tables) (a : action) (e : entry) : Prop :=
  e_type e = a_type a /\
  if is_reduction (a_type a) then rule_at t (e_next e) = Some (mkReduce (ident (r_nonterminal (a_rule a))) (rid (a_rule a)) (Z.of_nat (length (r_items (a_rule a)))))
  else e_next e = a_next a.
(** Guards, then weak reductions, shifts, reductions, the rest *)
Definition priority (t : action_type) : nat :=
  match t with Guard => 0 | WeakReduce => 1 | Shift | ShiftStrong | Divert => 2 | Reduce => 3 | Goto | Ignore | Accept => 4 end.
Definition in_priority (l : list entry) : Prop := StronglySorted (fun e e' => (priority (e_type e) <= priority (e_type e'))%nat) l.

Section Tables.
  Context (rid : rule -> Z) (rule_of : Z -> rule) (ident : item -> Z) (sort : list entry -> list entry) (sort_weak : list (Z * Z) -> list (Z * Z)).
  Context (actss : list action_set) (weak : list (item * iset)).
  Let t := make_tables rid rule_of ident sort sort_weak actss weak.
  Lemma made : sorts entry_ltb sort -> exists ids, ids_ok ids /\ from_rules rid (concat actss) [] ids /\
    Forall2 (fun acts l => exists ts, l = sort ts /\ Forall2 (coded rid ident ids) (filter (fun a => is_terminal (a_item a)) acts) ts) actss (t_terminals t) /\
    Forall2 (fun acts l => exists ns, l = sort ns /\ Forall2 (coded rid ident ids) (filter not_terminal acts) ns) actss (t_nonterminals t) /\
    StronglySorted Z.le (t_guards t) /\ (forall x, In x (t_guards t) <-> exists k acts, nth_error actss k = Some acts /\ x = Z.of_nat k /\ ends_guard ident acts) /\
    t_rules t = fill_rules rid rule_of ident ids /\ t_weak t = sort_weak (weak_pairs weak) /\ t_eoi t = ident IEoi /\ t_eog t = ident IEog.
  Proof.
    intros SO. unfold t, make_tables. destruct (fill_states rid ident sort 0 actss [] []) as [[[tss nss] ids] eogs] eqn:F. destruct (fill_states_spec rid rule_of ident sort sort_weak actss _ _ _ _ _ _ _ nil_ok F) as (OK & _ & FR & T & N & l & E & S & L).
    exists ids. cbn [t_terminals t_nonterminals t_guards t_rules t_weak t_eoi t_eog]. cbn [app] in E. subst eogs. repeat (split; [assumption|]). auto 6.
  Qed.
  Lemma Forall2_nth {A B} (R : A -> B -> Prop) l m : Forall2 R l m -> forall n a, nth_error l n = Some a -> exists b, nth_error m n = Some b /\ R a b.
  Proof. induction 1 as [|a b l m H F IH]; intros n x X; [destruct n; discriminate X|]. destruct n as [|n]; [injection X as ->; exists b; auto|]. apply IH, X. Qed.
  Lemma Forall2_nth' {A B} (R : A -> B -> Prop) l m : Forall2 R l m -> forall n b, nth_error m n = Some b -> exists a, nth_error l n = Some a /\ R a b.
  Proof. induction 1 as [|a b l m H F IH]; intros n x X; [destruct n; discriminate X|]. destruct n as [|n]; [injection X as ->; exists a; auto|]. apply IH, X. Qed.
  Lemma score_priority x y : action_score x <= action_score y -> (priority x <= priority y)%nat.
  Proof. destruct x, y; cbn; lia. Qed.
  Lemma table_rows ids acts p ts s : sorts entry_ltb sort -> ids_ok ids -> from_rules rid (concat actss) [] ids -> t_rules t = fill_rules rid rule_of ident ids -> fits rid rule_of actss -> In acts actss ->
    Forall2 (coded rid ident ids) (filter p acts) ts ->
    exists l, Permutation l (filter (fun a => symbol_of ident (a_item a) =? s) (filter p acts)) /\ Forall2 (describes rid ident t) l (scan s (find_action s (sort ts))) /\ in_priority (scan s (find_action s (sort ts))).
  Proof.
    intros SO OK FR TR FI AI C. destruct (SO ts) as [P S]. rewrite find_action_filter by (apply sorted_by_symbol, S).
    assert (C' : Forall2 (coded rid ident ids) (filter (fun a => symbol_of ident (a_item a) =? s) (filter p acts)) (filter (fun e => e_symbol e =? s) ts)).
    { apply Forall2_filter; [exact C|]. intros a e (_ & E & _) _. rewrite E. reflexivity. }
    destruct (permutation_Forall2 _ _ _ (permutation_filter (fun e => e_symbol e =? s) _ _ P) _ C') as (l & PL & FL). exists l. split; [apply Permutation_sym, PL|]. split.
    - assert (IN : forall a, In a l -> In a acts). { intros a A. apply (Permutation_in _ (Permutation_sym PL)) in A. apply filter_In in A. destruct A as [A _]. apply filter_In in A. apply A. }
      clear -FL IN AI FI OK TR FR. induction FL as [|a e l m (T & E & n & N & R) F IH]; constructor; [|apply IH; intros; apply IN; right; assumption].
      assert (A : In a acts) by (apply IN; left; reflexivity). split; [exact T|]. destruct (is_reduction (a_type a)) eqn:RD.
      + destruct (fill_rules_spec rid rule_of ident sort_weak ids OK) as [LN FS]. destruct (proj1 (proj2 OK) _ _ R) as [R0 R1]. assert (LE : Z.of_nat (length ids) <= 2 ^ 24).
        { destruct (fi_rules _ _ _ FI) as (rs & RS & RI). assert (ND : NoDup (map fst ids)).
          { destruct OK as (S & _). clear -S. induction ids as [|[k v] ids IH]; [constructor|]. apply msorted_cons in S. destruct S as [S H]. constructor; [|apply IH, S]. intros X. apply in_map_iff in X. destruct X as (q & Q & X). specialize (H q X). cbn [fst] in H. rewrite Q in H. rewrite Z.ltb_irrefl in H. discriminate H. }
          assert (IC : incl (map fst ids) (map rid rs)).
          { intros k K. apply in_map_iff in K. destruct K as ([k' v] & <- & K). destruct (FR _ _ K) as [[]|(b & B & RB & ->)]. cbn [fst]. apply in_concat in B. destruct B as (acts' & B1 & B2). apply in_map. eapply RI; eassumption. }
          pose proof (NoDup_incl_length ND IC) as X. rewrite !map_length in X. lia. }
        rewrite N. unfold bits24. rewrite Z.mod_small by lia. unfold rule_at. destruct (Z.ltb_spec n 0); [lia|]. rewrite TR, (FS _ _ R). unfold reduce_rule_of. rewrite (fi_known _ _ _ FI acts a AI A RD). reflexivity.
      + rewrite N. unfold bits24. rewrite R. apply Z.mod_small. eapply fi_next; eassumption.
    - assert (SF := sorted_filter _ (fun e => e_symbol e =? s) _ S). assert (ES : forall e, In e (filter (fun e => e_symbol e =? s) (sort ts)) -> e_symbol e = s) by (intros e X; apply filter_In in X; apply Z.eqb_eq, X).
      clear -SF ES. induction SF as [|e m S IH F]; constructor; [apply IH; intros; apply ES; right; assumption|]. rewrite Forall_forall in F |- *. intros x X. specialize (F x X). apply entry_le_spec in F. rewrite (ES e), (ES x) in F by (try (left; reflexivity); right; exact X). apply score_priority. lia.
  Qed.
  Lemma row_some {A} (rows : list (list entry)) n (x : list entry) (a : A) : nth_error rows n = Some x -> row (Z.of_nat n) rows = Some x.
  Proof. intros H. unfold row. destruct (Z.ltb_spec (Z.of_nat n) 0); [lia|]. rewrite Nat2Z.id. exact H. Qed.
End Tables.

(** C31.  For every state [q] and terminal [s], a scan from find_terminal visits exactly the actions of the
    state for [s], in order of priority.  Not shown for tables with more than 2^24 states or rules: see
    C31_wide_refuted. *)
Theorem C31_terminals_partial : forall rid rule_of ident sort sort_weak actss weak q acts s, sorts entry_ltb sort -> fits rid rule_of actss -> nth_error actss q = Some acts ->
  let t := make_tables rid rule_of ident sort sort_weak actss weak in
  exists found l, find_terminal t (Z.of_nat q) s = Some found /\ Permutation l (filter (fun a => item_eqb (a_item a) (ITerm s)) acts) /\ Forall2 (describes rid ident t) l (scan s found) /\ in_priority (scan s found).
Proof.
  intros rid rule_of ident sort sort_weak actss weak q acts s SO FI Q t. destruct (made rid rule_of ident sort sort_weak actss weak SO) as (ids & OK & FR & T & _ & _ & _ & TR & _).
  destruct (Forall2_nth _ _ _ T _ _ Q) as (row & R & ts & -> & C). destruct (table_rows rid rule_of ident sort sort_weak actss weak ids acts _ ts s SO OK FR TR FI (nth_error_In _ _ Q) C) as (l & P & D & PR).
  exists (find_action s (sort ts)), l. split; [unfold find_terminal; fold t in R; rewrite (row_some _ _ _ tt R); reflexivity|]. split; [|split; assumption].
  rewrite P. clear. induction acts as [|a acts IH]; [constructor|]. cbn [filter]. destruct (is_terminal (a_item a)) eqn:E.
  - cbn [filter]. assert (EQ : (symbol_of ident (a_item a) =? s) = item_eqb (a_item a) (ITerm s)).
    { destruct (a_item a) as [| | |s'| | |]; try discriminate E. cbn [symbol_of]. destruct (Z.eqb_spec s' s) as [->|N]; symmetry; [apply item_eqb_spec; reflexivity|]. destruct (item_eqb (ITerm s') (ITerm s)) eqn:X; [|reflexivity]. apply item_eqb_spec in X. congruence. }
    rewrite EQ. destruct (item_eqb (a_item a) (ITerm s)); [constructor|]; exact IH.
  - destruct (item_eqb (a_item a) (ITerm s)) eqn:X; [apply item_eqb_spec in X; rewrite X in E; discriminate E|]. exact IH.
Qed.
Print Assumptions C31_terminals_partial.
(** The same for the other items: nonterminals, guards, end of input and so on. *)
Theorem C31_nonterminals_partial : forall rid rule_of ident sort sort_weak actss weak q acts i, sorts entry_ltb sort -> (forall i j, ident i = ident j -> i = j) -> fits rid rule_of actss -> nth_error actss q = Some acts -> is_terminal i = false ->
  let t := make_tables rid rule_of ident sort sort_weak actss weak in
  exists found l, find_nonterminal t (Z.of_nat q) (ident i) = Some found /\ Permutation l (filter (fun a => item_eqb (a_item a) i) acts) /\ Forall2 (describes rid ident t) l (scan (ident i) found) /\ in_priority (scan (ident i) found).
Proof.
  intros rid rule_of ident sort sort_weak actss weak q acts i SO II FI Q NT t. destruct (made rid rule_of ident sort sort_weak actss weak SO) as (ids & OK & FR & _ & T & _ & _ & TR & _).
  destruct (Forall2_nth _ _ _ T _ _ Q) as (row & R & ts & -> & C). destruct (table_rows rid rule_of ident sort sort_weak actss weak ids acts _ ts (ident i) SO OK FR TR FI (nth_error_In _ _ Q) C) as (l & P & D & PR).
  exists (find_action (ident i) (sort ts)), l. split; [unfold find_nonterminal; fold t in R; rewrite (row_some _ _ _ tt R); reflexivity|]. split; [|split; assumption].
  rewrite P. clear -II NT. induction acts as [|a acts IH]; [constructor|]. cbn [filter]. unfold not_terminal at 1. destruct (is_terminal (a_item a)) eqn:E; cbn [negb].
  - destruct (item_eqb (a_item a) i) eqn:X; [apply item_eqb_spec in X; congruence|]. exact IH.
  - cbn [filter]. assert (EQ : (symbol_of ident (a_item a) =? ident i) = item_eqb (a_item a) i).
    { replace (symbol_of ident (a_item a)) with (ident (a_item a)) by (destruct (a_item a); try reflexivity; discriminate E). destruct (Z.eqb_spec (ident (a_item a)) (ident i)) as [X|X], (item_eqb (a_item a) i) eqn:Y; try reflexivity; [|apply item_eqb_spec in Y; congruence].
      apply II in X. apply item_eqb_spec in X. congruence. }
    rewrite EQ. destruct (item_eqb (a_item a) i); [constructor|]; exact IH.
Qed.
Print Assumptions C31_nonterminals_partial.
(** A next state of 2^24 is stored as 0. *)
Theorem C31_wide_refuted : exists a, forall rid rule_of ident sort sort_weak, sorts entry_ltb sort ->
  let t := make_tables rid rule_of ident sort sort_weak [[a]] [] in
  find_terminal t 0 4 = Some [mkEntry Shift 0 4] /\ a = mkAction Shift (ITerm 4) (2 ^ 24) no_rule.
Proof.
  eexists. intros rid rule_of ident sort sort_weak SO t. split; [|reflexivity]. unfold t. unfold find_terminal, row, make_tables. cbn. destruct (SO [mkEntry Shift 0 4]) as [P _]. apply Permutation_length_1_inv in P. rewrite P. reflexivity.
Qed.
Print Assumptions C31_wide_refuted.

(** C47.  In any array, find_action answers with a position inside it or at its end. *)
Theorem C47_bounds : forall s l, (find_pos s l <= length l)%nat /\ find_action s l = skipn (find_pos s l) l.
Proof. intros s l. split; [apply lower_bound_pos_le|reflexivity]. Qed.
Print Assumptions C47_bounds.
(** In the arrays of every state of every table, no entry before the position has the symbol, the entries
    with the symbol follow one another from the position, and none come later.  So if there are none, the
    scan stops at once. *)
Theorem C47_position : forall rid rule_of ident sort sort_weak actss weak q l s, sorts entry_ltb sort ->
  let t := make_tables rid rule_of ident sort sort_weak actss weak in
  row q (t_terminals t) = Some l \/ row q (t_nonterminals t) = Some l ->
  exists before here after, l = before ++ here ++ after /\ length before = find_pos s l /\ scan s (find_action s l) = here /\
    (forall e, In e before -> e_symbol e < s) /\ (forall e, In e here -> e_symbol e = s) /\ (forall e, In e after -> s < e_symbol e).
Proof.
  intros rid rule_of ident sort sort_weak actss weak q l s SO t R. destruct (made rid rule_of ident sort sort_weak actss weak SO) as (ids & _ & _ & T & N & _). fold t in T, N.
  assert (S : by_symbol l).
  { apply sorted_by_symbol. destruct R as [R|R]; unfold row in R; (destruct (q <? 0); [discriminate R|]).
    - destruct (Forall2_nth' _ _ _ T _ _ R) as (acts & _ & ts & -> & _). apply SO.
    - destruct (Forall2_nth' _ _ _ N _ _ R) as (acts & _ & ts & -> & _). apply SO. }
  destruct (find_pos_spec s l S) as (A & B & C). assert (S2 := by_symbol_skipn l (find_pos s l) S). fold (find_action s l) in S2.
  assert (G : forall e, In e (find_action s l) -> s <= e_symbol e). { intros e X. apply (In_nth _ _ no_entry) in X. destruct X as (i & I & X). unfold find_action in *. rewrite skipn_length in I. rewrite nth_skipn' in X. subst e. apply C; lia. }
  assert (X : exists after, find_action s l = scan s (find_action s l) ++ after /\ (forall e, In e (scan s (find_action s l)) -> e_symbol e = s) /\ forall e, In e after -> s < e_symbol e).
  { clear -S2 G. induction S2 as [|e m S IH F]; [exists []; split; [reflexivity|split; intros e []]|]. cbn [scan]. destruct (Z.eqb_spec (e_symbol e) s) as [E|NE].
    - destruct IH as (after & E1 & E2 & E3); [intros; apply G; right; assumption|]. exists after. split; [cbn [app]; rewrite <- E1; reflexivity|]. split; [intros x [<-|X]; [exact E|apply E2, X]|exact E3].
    - exists (e :: m). split; [reflexivity|]. split; [intros x []|]. assert (s < e_symbol e) by (specialize (G e (or_introl eq_refl)); lia). intros x [<-|X]; [assumption|]. rewrite Forall_forall in F. specialize (F x X). cbv beta in F. lia. }
  destruct X as (after & X & H & AF). exists (firstn (find_pos s l) l), (scan s (find_action s l)), after. split; [rewrite <- X; unfold find_action; symmetry; apply firstn_skipn|]. split; [rewrite firstn_length; lia|]. split; [reflexivity|]. split; [|split; assumption].
  intros e E. apply (In_nth _ _ no_entry) in E. destruct E as (i & I & E). rewrite firstn_length in I. rewrite nth_firstn' in E by lia. subst e. apply B. lia.
Qed.
Print Assumptions C47_position.

(** C56.  A state is said to have an end of guard action exactly when it has one, and the strong symbol
    for a weak symbol is one that the weak symbol was declared for; a symbol that is not weak is its own. *)
Theorem C56_end_of_guard : forall rid rule_of ident sort sort_weak actss weak q acts, sorts entry_ltb sort -> (forall i j, ident i = ident j -> i = j) -> nth_error actss q = Some acts ->
  has_end_of_guard (make_tables rid rule_of ident sort sort_weak actss weak) (Z.of_nat q) = true <-> exists a, In a acts /\ a_item a = IEog.
Proof.
  intros rid rule_of ident sort sort_weak actss weak q acts SO II Q. destruct (made rid rule_of ident sort sort_weak actss weak SO) as (ids & _ & _ & _ & _ & S & G & _). set (t := make_tables rid rule_of ident sort sort_weak actss weak) in *.
  destruct (lower_bound_pos_spec (fun i => nth i (t_guards t) 0 <? Z.of_nat q) (length (t_guards t))) as (A & B & C).
  { intros i j I J H. apply Z.ltb_lt in H. apply Z.ltb_lt. pose proof (sorted_nth _ 0 _ S i j I J). lia. }
  assert (E : has_end_of_guard t (Z.of_nat q) = true <-> In (Z.of_nat q) (t_guards t)).
  { unfold has_end_of_guard. cbv zeta in A, B, C. cbv zeta. set (p := lower_bound_pos _ _) in *. destruct (nth_error (t_guards t) p) as [g|] eqn:N.
    - assert (NG : nth p (t_guards t) 0 = g) by (apply nth_error_nth, N). assert (p < length (t_guards t))%nat by (apply nth_error_Some; congruence). specialize (C p (Nat.le_refl _) ltac:(assumption)). rewrite NG in C. rewrite Z.ltb_ge in C. destruct (Z.ltb_spec (Z.of_nat q) g); cbn [negb]; split; intros X; try discriminate X; try reflexivity.
      + apply (In_nth _ _ 0) in X. destruct X as (i & I & X). destruct (Nat.lt_trichotomy i p) as [L|[L|L]].
        * specialize (B i L). rewrite X in B. rewrite Z.ltb_irrefl in B. discriminate B.
        * subst i. lia.
        * pose proof (sorted_nth _ 0 _ S p i L I). lia.
      + replace (Z.of_nat q) with g by lia. eapply nth_error_In, N.
    - split; [discriminate|]. intros X. apply (In_nth _ _ 0) in X. destruct X as (i & I & X). apply nth_error_None in N. specialize (B i ltac:(lia)). rewrite X, Z.ltb_irrefl in B. discriminate B. }
  rewrite E, G. split.
  - intros (k & acts' & K & EK & a & AI & _ & ID). assert (k = q) by lia. subst k. exists a. split; [congruence|]. apply II, ID.
  - intros (a & AI & EA). exists q, acts. split; [exact Q|]. split; [reflexivity|]. exists a. rewrite EA. auto.
Qed.
Print Assumptions C56_end_of_guard.
Definition weak_for (weak : list (item * iset)) (w s : Z) : Prop := exists ws, In (ITerm s, ws) weak /\ In (ITerm w) ws.
Theorem C56_strong : forall rid rule_of ident sort sort_weak actss weak w, sorts weak_ltb sort_weak ->
  let s := strong_for_weak (make_tables rid rule_of ident sort sort_weak actss weak) w in
  weak_for weak w s \/ s = w /\ forall s', ~ weak_for weak w s'.
Proof.
  intros rid rule_of ident sort sort_weak actss weak w SW s. assert (E : t_weak (make_tables rid rule_of ident sort sort_weak actss weak) = sort_weak (weak_pairs weak)).
  { unfold make_tables. destruct (fill_states _ _ _ _ _ _ _) as [[[? ?] ?] ?]. reflexivity. }
  assert (IN : forall w s, In (w, s) (sort_weak (weak_pairs weak)) <-> weak_for weak w s).
  { intros w' s'. destruct (SW (weak_pairs weak)) as [P _]. transitivity (In (w', s') (weak_pairs weak)); [split; apply Permutation_in; [apply Permutation_sym|]; exact P|]. unfold weak_pairs, weak_for. rewrite in_flat_map. split.
    - intros ([strong ws] & S & X). destruct strong as [| | |s0| | |]; try destruct X. apply in_flat_map in X. destruct X as (i & I & X). destruct i as [| | |w0| | |]; cbn in X; try contradiction. destruct X as [X|[]]. injection X as -> ->. exists ws. auto.
    - intros (ws & S & X). exists (ITerm s', ws). split; [exact S|]. apply in_flat_map. exists (ITerm w'). split; [exact X|left; reflexivity]. }
  unfold s, strong_for_weak. rewrite E. destruct (find _ _) as [[w' s']|] eqn:F.
  - apply find_some in F. destruct F as [F W]. cbn in W. apply Z.eqb_eq in W. subst w'. left. apply IN, F.
  - right. split; [reflexivity|]. intros s' X. apply IN in X. apply (find_none _ _ F) in X. cbn in X. rewrite Z.eqb_refl in X. discriminate X.
Qed.
Print Assumptions C56_strong.

Definition item_number (i : item) : Z := rule_number (mkRule i []).
Lemma item_number_injective i j : item_number i = item_number j -> i = j.
Proof. intros H. apply rule_number_injective in H. congruence. Qed.
(** State 0 can shift t4, check guard 1, reduce rule A on t4 and t7; state 1 accepts at the end of a guard
    and goes to state 0 on nonterminal 0.  (This meets the hypotheses of C47 and C56 too.) *)
Definition rule_a : rule := mkRule (INonterm 0) [ITerm 4; ITerm 4].
Definition rule_b : rule := mkRule (IGuard 1 [ITerm 4]) [ITerm 4].
Definition acts_ex : list action_set :=
  [[mkAction Shift (ITerm 4) 1 no_rule; mkAction Reduce (ITerm 4) 0 rule_a; mkAction Reduce (ITerm 7) 0 rule_a; mkAction Guard (ITerm 4) 1 rule_b];
   [mkAction Accept IEog 0 rule_b; mkAction Goto (INonterm 0) 0 no_rule]].
Definition rule_of_ex (id : Z) : rule := if id =? rule_number rule_a then rule_a else rule_b.
Example C31_nontrivial : let t := make_tables rule_number rule_of_ex item_number (insertion_sort entry_ltb) (insertion_sort weak_ltb) acts_ex [(ITerm 4, [ITerm 7; ITerm 9])] in
  sorts entry_ltb (insertion_sort entry_ltb) /\ sorts weak_ltb (insertion_sort weak_ltb) /\ (forall i j, item_number i = item_number j -> i = j) /\ fits rule_number rule_of_ex acts_ex /\
  (exists found, find_terminal t 0 4 = Some found /\ scan 4 found = [mkEntry Guard 1 4; mkEntry Shift 1 4; mkEntry Reduce 0 4]) /\
  (exists found, find_terminal t 0 5 = Some found /\ length found = 1%nat /\ scan 5 found = []) /\
  rule_at t 1 = Some (mkReduce (item_number (IGuard 1 [ITerm 4])) (rule_number rule_b) 1) /\
  has_end_of_guard t 0 = false /\ has_end_of_guard t 1 = true /\ strong_for_weak t 9 = 4 /\ strong_for_weak t 4 = 4.
Proof.
  cbn zeta. split; [apply entry_sorts|]. split; [apply weak_sorts|]. split; [apply item_number_injective|]. split.
  - split.
    + intros acts a [<-|[<-|[]]] A; cbn [In] in A; (repeat destruct A as [A|A]); subst; try contradiction; cbn; intros; try discriminate; lia.
    + exists [rule_a; rule_b]. split; [cbn; lia|]. intros acts a [<-|[<-|[]]] A; cbn [In] in A; (repeat destruct A as [A|A]); subst; try contradiction; cbn; intros; try discriminate; auto.
    + intros acts a [<-|[<-|[]]] A; cbn [In] in A; (repeat destruct A as [A|A]); subst; try contradiction; cbn [is_reduction a_type]; intros; try discriminate; vm_compute; reflexivity.
  - split; [eexists; split; [vm_compute; reflexivity|reflexivity]|]. split; [eexists; split; [vm_compute; reflexivity|split; reflexivity]|]. split; [vm_compute; reflexivity|]. repeat split; vm_compute; reflexivity.
Qed.
