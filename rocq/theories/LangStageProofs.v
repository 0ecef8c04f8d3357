(** Proofs about whole language blocks and chains of them. *)
From Verif Require Import Base OrdMap GrammarModel GrammarSpec GrammarProofs LangModel LangSpec LangItemProofs LangGramProofs LangLexProofs.
Local Open Scope Z_scope.

(** ** Nonterminals and their items *)
Lemma nonterminal_item g : ids_ok g -> forall s id, In (INonterm s, id) (item_id g) -> id = s /\ exists n, In (n, s) (name_nt g).
Proof.
  intros [log A]. intros s id H. split; [apply (ii_nonterminal _ _ (items_after _ _ A)), H|]. revert s id H. induction A as [|g log c A IH AL]; intros s id H.
  - cbn in H. destruct H as [H|[]]. discriminate H.
  - pose proof (items_after _ _ A) as I. pose proof (items_after _ _ (after_call _ _ _ c A AL)) as I'.
    destruct c as [n|i|r]; cbn [perform] in *.
    + unfold id_for_nonterminal in *. destruct (mfind name_ltb n (name_nt g)) as [i|] eqn:F; [apply (IH s id H)|]. cbn [fst item_id name_nt snd] in *.
      apply (mset_in _ item_strict _ (nb_sorted _ _ _ (ii_numbering _ _ I))) in H. destruct H as [H|[H _]].
      * injection H as -> ->. exists n. apply (minsert_in _ _ (ii_names _ _ I)). right. auto.
      * destruct (IH s id H) as [k Hk]. exists k. apply (minsert_in _ _ (ii_names _ _ I)). left. exact Hk.
    + unfold identifier_for_item in *. destruct (mfind item_ltb i (item_id g)) as [x|] eqn:F; [apply (IH s id H)|]. cbn [fst item_id name_nt] in *.
      apply (mset_in _ item_strict _ (nb_sorted _ _ _ (ii_numbering _ _ I))) in H. destruct H as [H|[H _]]; [|apply (IH s id H)]. injection H as E _. subst i.
      destruct AL as [n Hn]. exists n. apply (ii_log_name _ _ I), Hn.
    + unfold identifier_for_rule in *. destruct (mfind rule_ltb r (rule_id g)) as [x|] eqn:F; apply (IH s id H).
Qed.

Definition id_range (g : ids) : list Z := map Z.of_nat (seq 0 (length (item_id g))).
Lemma id_range_in g id : ids_ok g -> In id (id_range g) <-> exists i, In (i, id) (item_id g).
Proof.
  intros [log A]. rewrite (nb_range _ _ _ (ii_numbering _ _ (items_after _ _ A))). unfold id_range. rewrite in_map_iff. split.
  - intros (k & <- & H). apply in_seq in H. lia.
  - intros H. exists (Z.to_nat id). split; [lia|]. apply in_seq. lia.
Qed.
Lemma nt_of_range g n : ids_ok g -> known g n -> In (nt_of g n) (id_range g).
Proof.
  intros O K. apply (id_range_in g _ O). pose proof (nt_of_known g n O K) as H. destruct O as [log A]. apply (ii_item _ _ (items_after _ _ A)) in H. eauto.
Qed.

(** ** Symbols in rules *)
Lemma fold_flat {S X Y} (f : S -> Y -> S) (h : X -> list Y) l : forall st, fold_left f (flat_map h l) st = fold_left (fun st x => fold_left f (h x) st) l st.
Proof. induction l as [|x l IH]; intros st; cbn [flat_map fold_left]; [reflexivity|]. rewrite fold_left_app. apply IH. Qed.
Definition rule_terminals (g : gram_state) : list Z := flat_map (fun id => flat_map (flat_map item_terminals) (rules_of (g_rules g) id)) (id_range (g_ids g)).
Lemma fold_left_ext {S X} (f h : S -> X -> S) l : (forall st x, f st x = h st x) -> forall st, fold_left f l st = fold_left h l st.
Proof. intros E. induction l as [|x l IH]; intros st; cbn [fold_left]; [reflexivity|]. rewrite E. apply IH. Qed.
Lemma process_rules_flat g ignored st : process_rules g ignored st = fold_left (fun st s => process_symbol st ignored s) (rule_terminals g) st.
Proof.
  unfold process_rules, rule_terminals, id_range. rewrite fold_flat. apply fold_left_ext. intros st1 id. rewrite fold_flat. apply fold_left_ext. intros st2 r. rewrite fold_flat. reflexivity.
Qed.
Lemma process_symbols ignored l : ssorted Z.ltb ignored -> forall unused used, ssorted Z.ltb unused -> ssorted Z.ltb used ->
  let r := fold_left (fun st s => process_symbol st ignored s) l (unused, used) in
  ssorted Z.ltb (fst r) /\ ssorted Z.ltb (snd r) /\ (forall s, In s (fst r) <-> In s unused /\ ~ In s l) /\ (forall s, In s (snd r) <-> In s used \/ (In s l /\ In s ignored)).
Proof.
  intros SI. induction l as [|x l IH]; intros unused used SU SD; cbn [fold_left].
  - split; [exact SU|]. split; [exact SD|]. cbn [fst snd In]. split; intros s; tauto.
  - unfold process_symbol at 1 3 5 7. cbn [fst snd].
    assert (SD2 : ssorted Z.ltb (if smem Z.ltb x ignored then sins Z.ltb x used else used)) by (destruct (smem _ _ _); [apply (sins_sorted _ Zltb_strict)|]; exact SD).
    destruct (IH _ _ (serase_sorted _ Zltb_strict _ SU x) SD2) as (A & B & C & D). split; [exact A|]. split; [exact B|]. split.
    + intros s. rewrite C, (serase_in _ Zltb_strict _ SU). cbn [In]. intuition congruence.
    + intros s. rewrite D. cbn [In]. destruct (smem Z.ltb x ignored) eqn:M.
      * apply (smem_in _ Zltb_strict _ SI) in M. rewrite (sins_in _ Zltb_strict). intuition congruence.
      * assert (N : ~ In x ignored) by (intros H; apply (smem_in _ Zltb_strict _ SI) in H; congruence). intuition congruence.
Qed.
Lemma process_rules_spec g ignored unused used : ssorted Z.ltb ignored -> ssorted Z.ltb unused -> ssorted Z.ltb used ->
  let r := process_rules g ignored (unused, used) in
  ssorted Z.ltb (fst r) /\ ssorted Z.ltb (snd r) /\ (forall s, In s (fst r) <-> In s unused /\ ~ In s (rule_terminals g)) /\ (forall s, In s (snd r) <-> In s used \/ (In s (rule_terminals g) /\ In s ignored)).
Proof. intros A B C. rewrite process_rules_flat. apply process_symbols; assumption. Qed.
(** The terminals of rules that come from productions *)
Lemma item_terminals_alts nt tm more : Forall (fun l => flat_map item_terminals (tr_all nt tm l) = map tm (flat_map plain_terminals l)) more -> forall a, flat_map item_terminals (tr_all nt tm a) = map tm (flat_map plain_terminals a) ->
  flat_map item_terminals (tr_alts nt tm a more) = map tm (flat_map (flat_map plain_terminals) (a :: more)).
Proof.
  induction 1 as [|m more E F IH]; intros a Ea; cbn [tr_alts].
  - cbn [flat_map]. rewrite app_nil_r. exact Ea.
  - cbn [flat_map item_terminals]. rewrite !app_nil_r, Ea, (IH m E). rewrite <- map_app. reflexivity.
Qed.
Lemma item_terminals_tr nt tm s : flat_map item_terminals (tr nt tm s) = map tm (plain_terminals s).
Proof.
  assert (ALL : forall l, Forall (fun s => flat_map item_terminals (tr nt tm s) = map tm (plain_terminals s)) l -> flat_map item_terminals (tr_all nt tm l) = map tm (flat_map plain_terminals l)).
  { induction 1 as [|s0 l E F IH]; [reflexivity|]. unfold tr_all in *. cbn [flat_map]. rewrite flat_map_app, map_app, E, IH. reflexivity. }
  induction s as [src n|k src n|a more Ha Hm|s IH|s IH|s IH|a more Ha Hm] using simple_rect'.
  - reflexivity.
  - reflexivity.
  - rewrite tr_guard. reflexivity.
  - cbn [tr flat_map item_terminals]. rewrite !app_nil_r. exact IH.
  - cbn [tr flat_map item_terminals]. rewrite !app_nil_r. exact IH.
  - cbn [tr flat_map item_terminals]. rewrite !app_nil_r. exact IH.
  - rewrite tr_paren. apply item_terminals_alts; [|apply ALL, Ha]. eapply Forall_impl; [|exact Hm]. intros l. apply ALL.
Qed.
Lemma item_terminals_all nt tm p : flat_map item_terminals (tr_all nt tm p) = map tm (flat_map plain_terminals p).
Proof. unfold tr_all. induction p as [|s p IH]; [reflexivity|]. cbn [flat_map]. rewrite flat_map_app, map_app, item_terminals_tr, IH. reflexivity. Qed.
Lemma rule_terminals_spec tm prods mentioned g s : gram_inv tm prods mentioned g -> In s (rule_terminals g) <-> exists t, uses prods t /\ s = tm t.
Proof.
  intros I. unfold rule_terminals. rewrite in_flat_map. split.
  - intros (id & _ & H). assert (NE : rules_of (g_rules g) id <> []) by (intros E; rewrite E in H; destruct H). destruct (gm_only _ _ _ _ I id NE) as (n & K & ->). rewrite (gm_rules _ _ _ _ I n K) in H.
    apply in_flat_map in H. destruct H as (r & Hr & H). apply in_map_iff in Hr. destruct Hr as (p & <- & Hp). unfold items_for in H. rewrite item_terminals_all in H. apply in_map_iff in H. destruct H as (t & <- & Ht). exists t. split; [exists n, p; auto|reflexivity].
  - intros (t & (n & p & Hp & Ht) & ->). destruct (known_dec (g_ids g) n (gm_ids _ _ _ _ I)) as [K|K]; [|rewrite (gm_unknown _ _ _ _ I n K) in Hp; destruct Hp].
    exists (nt_of (g_ids g) n). split; [apply nt_of_range; [apply I|exact K]|]. rewrite (gm_rules _ _ _ _ I n K). apply in_flat_map. exists (items_for tm (g_ids g) p). split; [apply in_map, Hp|]. unfold items_for. rewrite item_terminals_all. apply in_map, Ht.
Qed.

(** ** The grammar is always compiled *)
Lemma define_grammar_defined tm defs : forall g, ids_ok (g_ids g) -> exists g', each (define_nonterminal tm) (map parse_def defs) g = Some g' /\ ids_ok (g_ids g').
Proof.
  assert (PRODS : forall id ps g, ids_ok (g_ids g) -> exists g', each (define_production tm id) (map (map ebnf_of) ps) g = Some g' /\ ids_ok (g_ids g')).
  { intros id ps. induction ps as [|p ps IH]; intros g O; cbn [map each]; [exists g; auto|]. unfold define_production at 1. destruct (compiles_production tm p (g_ids g) (g_guards g) O) as (i & guards & E & X). rewrite E.
    set (ru := mkRule _ _). destruct (identifier_for_rule_spec i ru (e_ok _ _ _ X)) as [O2 _]. destruct (identifier_for_rule ru i) as [i2 id2]. cbn [fst] in O2. apply IH. exact O2. }
  induction defs as [|d defs IH]; intros g O; cbn [map each]; [exists g; auto|]. unfold define_nonterminal at 1. cbn [parse_def nd_name nd_kind nd_productions].
  destruct (id_for_nonterminal_spec (g_ids g) (nd_name d) O) as (O1 & _). destruct (id_for_nonterminal (nd_name d) (g_ids g)) as [i id]. cbn [fst] in O1. cbn [g_rules].
  set (g1 := match nd_kind d with Assignment => _ | Addition => _ | Replace => _ end). assert (Og : ids_ok (g_ids g1)) by (unfold g1; destruct (nd_kind d), (rules_of (g_rules g) id); exact O1). clearbody g1.
  destruct (PRODS id (nd_productions d) g1 Og) as (g2 & E2 & O2). rewrite E2. apply IH, O2.
Qed.

(** ** One language block *)
Lemma defs_where_ok l sel : written_ok l -> Forall (fun e => well_written (df_lexeme e)) (defs_where sel l).
Proof.
  intros [W _]. apply Forall_forall. intros e H. unfold defs_where in H. apply in_flat_map in H. destruct H as (u & Hu & H). destruct u as [ty b|d|p]; cbn [block_defs] in H; [|destruct H|destruct H].
  destruct (sel ty b); [|destruct H]. apply in_map_iff in H. destruct H as (x & <- & Hx). cbn [df_lexeme]. eapply W; eassumption.
Qed.
Lemma explicit_ok l : written_ok l -> Forall (fun e => well_written (df_lexeme e)) (explicit_defs l).
Proof.
  intros W. apply Forall_forall. intros e H. unfold explicit_defs in H. apply in_flat_map in H. destruct H as (w & _ & H). apply in_flat_map in H. destruct H as (ty & _ & H). pose proof (fun sel => proj1 (Forall_forall _ _) (defs_where_ok l sel W)) as F. exact (F _ e H).
Qed.
Lemma implicit_all_ok l : written_ok l -> Forall implicit_ok (terminals_of l).
Proof. intros [_ W]. apply Forall_forall. intros [[k src] n] H. exact (W k src n H). Qed.

(** What the lexer side of a block does *)
Definition lex_part (l : language simple) (x : lex_state) : option lex_state :=
  match define_expressions (parse_language l) x with
  | None => None
  | Some x => match define_lexemes (parse_language l) x with None => None | Some x => define_implicit (parse_language l) x end
  end.
Lemma lex_part_defined l x : written_ok l -> exists x' m, lex_part l x = Some x' /\ x_messages x' = x_messages x ++ m.
Proof.
  intros W. unfold lex_part. rewrite define_expressions_each. destruct (run_exprs_defined _ (defs_where_ok l _ W : Forall _ (symbol_defs l)) x) as (x1 & m1 & E1 & M1 & _). rewrite E1, define_lexemes_each.
  destruct (run_defined _ (explicit_ok l W) x1) as (x2 & m2 & E2 & M2 & _). rewrite E2, define_implicit_each. destruct (run_implicit_defined _ (implicit_all_ok l W) x2) as (x3 & m3 & E3 & M3 & _). rewrite E3.
  exists x3, (m1 ++ m2 ++ m3). split; [reflexivity|]. rewrite M3, M2, M1, !app_assoc. reflexivity.
Qed.
Definition block_consistent (sevs evs : list defn) (l : language simple) : Prop := consistent_from false sevs (symbol_defs l) /\ consistent_from true evs (explicit_defs l).
Lemma lex_part_spec l x evs explicit U sevs : written_ok l -> lex_inv evs explicit U x -> expr_inv sevs x ->
  exists x' m, lex_part l x = Some x' /\ x_messages x' = x_messages x ++ m /\
  ((block_consistent sevs evs l /\ m = flat_map warns (language_implicit (map df_name evs) l) /\ lex_inv (evs ++ language_defs (map df_name evs) l) (explicit ++ explicit_defs l) (fun k => U k \/ adds (language_defs (map df_name evs) l) k) x' /\
    expr_inv (sevs ++ symbol_defs l) x' /\ (forall k, In k (map df_name evs) -> sym x' k = sym x k)) \/
   (~ block_consistent sevs evs l /\ error_in m)).
Proof.
  intros W I J. unfold lex_part, block_consistent. rewrite define_expressions_each. destruct (run_exprs _ (defs_where_ok l _ W : Forall _ (symbol_defs l)) sevs x J) as (x1 & m1 & E1 & M1 & O1 & R1). rewrite E1, define_lexemes_each.
  pose proof (only_exprs_inv _ _ _ _ _ O1 I) as I1. destruct (run_explicit _ (explicit_ok l W) evs explicit U x1 I1) as (x2 & m2 & E2 & M2 & X2 & R2). rewrite E2, define_implicit_each.
  assert (BAD : error_in (m1 ++ m2) -> exists x' m, each implicit_step (terminals_of l) x2 = Some x' /\ x_messages x' = x_messages x ++ m /\ error_in m).
  { intros (e & H1 & H2). destruct (run_implicit_defined _ (implicit_all_ok l W) x2) as (x3 & m3 & E3 & M3 & _). exists x3, ((m1 ++ m2) ++ m3). split; [exact E3|]. split; [rewrite M3, M2, M1, !app_assoc; reflexivity|]. exists e. split; [apply in_or_app; left; exact H1|exact H2]. }
  destruct R1 as [(C1 & -> & J1)|(C1 & ER)].
  - destruct R2 as [(C2 & -> & I2 & S2)|(C2 & ER)].
    + destruct (run_implicit _ (implicit_all_ok l W) _ _ _ x2 I2) as (x3 & E3 & M3 & X3 & I3 & S3). rewrite map_app in *.
      rewrite (implicit_defs_ext (terminals_of l) (map df_name evs ++ map df_name (explicit_defs l)) (map df_name (explicit_defs l) ++ map df_name evs)) in M3, I3 by (intros n; rewrite !in_app_iff; tauto).
      fold (language_implicit (map df_name evs) l) in M3, I3. exists x3, (flat_map warns (language_implicit (map df_name evs) l)). split; [exact E3|]. split; [rewrite M3, M2, M1, !app_nil_r; reflexivity|]. left. split; [split; assumption|]. split; [reflexivity|]. split; [|split].
      * rewrite <- app_assoc in I3. eapply lex_inv_ext; [|exact I3]. intros n. unfold language_defs, adds. fold (language_implicit (map df_name evs) l). split.
        -- intros [[H|(e & H1 & H2)]|(e & H1 & H2)]; [auto|right; exists e; split; [apply in_or_app; left; exact H1|exact H2]|right; exists e; split; [apply in_or_app; right; exact H1|exact H2]].
        -- intros [H|(e & H1 & H2)]; [auto|]. apply in_app_or in H1. destruct H1 as [H1|H1]; [left; right; exists e; auto|right; exists e; auto].
      * unfold expr_inv in *. rewrite X3, X2. exact J1.
      * intros k Hk. rewrite S3 by (apply in_or_app; left; exact Hk). rewrite S2 by exact Hk. apply (only_exprs_sym _ _ _ O1).
    + destruct (BAD) as (x3 & m3 & E3 & M3 & ER3); [exact ER|]. exists x3, m3. split; [exact E3|]. split; [exact M3|]. right. split; [intros [_ H]; exact (C2 H)|exact ER3].
  - destruct (BAD) as (x3 & m3 & E3 & M3 & ER3); [destruct ER as (e & H1 & H2); exists e; split; [apply in_or_app; left; exact H1|exact H2]|]. exists x3, m3. split; [exact E3|]. split; [exact M3|]. right. split; [intros [H _]; exact (C1 H)|exact ER3].
Qed.
Lemma compile_language_eq st l : compile_language st (parse_language l) =
  match lex_part l (s_lex st) with
  | None => None
  | Some x => match each (define_nonterminal (fun n => TermDictModel.symbol_for_name n (x_terms x))) (map parse_def (nonterminals l)) (s_gram st) with
              | None => None
              | Some g => let r := process_rules g (x_ignored x) (x_unused x, s_used_ignored st) in
                          Some (mkStage (with_unused (fst r) x) (check_nonterminals (check_precedence (parse_language l) (x_terms x) g)) (snd r))
              end
  end.
Proof.
  unfold compile_language, lex_part. destruct (define_expressions _ _); [|reflexivity]. destruct (define_lexemes _ _); [|reflexivity]. destruct (define_implicit _ _); [|reflexivity]. unfold define_grammar. rewrite nonterminals_parse.
  destruct (each _ _ _) as [g|]; [|reflexivity]. destruct (process_rules _ _ _). reflexivity.
Qed.

Lemma check_ids {X} (l : language X) d g : g_ids (check_nonterminals (check_precedence l d g)) = g_ids g /\ g_rules (check_nonterminals (check_precedence l d g)) = g_rules g.
Proof. rewrite check_nonterminals_spec, check_precedence_spec. split; reflexivity. Qed.
Lemma rule_terminals_check {X} (l : language X) d g : rule_terminals (check_nonterminals (check_precedence l d g)) = rule_terminals g.
Proof. unfold rule_terminals. destruct (check_ids l d g) as [-> ->]. reflexivity. Qed.

Lemma lex_inv_used evs explicit U x T l : lex_inv evs explicit U x -> ssorted Z.ltb l -> (forall s, In s l <-> In s (x_unused x) /\ ~ In s T) ->
  lex_inv evs explicit (fun n => U n /\ ~ In (sym x n) T) (with_unused l x).
Proof.
  intros I S H. constructor; try apply I.
  - intros n [K _]. apply (li_unused_known _ _ _ _ I), K.
  - intros s. cbn [with_unused x_unused]. rewrite H, (li_unused _ _ _ _ I). split.
    + intros [(n & K & ->) N]. exists n. auto.
    + intros (n & [K N] & ->). split; [exists n; auto|exact N].
  - exact S.
Qed.

(** One more language *)
Record stage_step (l : language simple) (evs explicit : list defn) (U : name -> Prop) (sevs : list defn) (st st' : stage) : Prop := {
  ss_consistent : block_consistent sevs evs l;
  ss_messages : x_messages (s_lex st') = x_messages (s_lex st) ++ flat_map warns (language_implicit (names evs) l);
  ss_lex : lex_inv (evs ++ language_defs (names evs) l) (explicit ++ explicit_defs l)
             (fun n => (U n \/ adds (language_defs (names evs) l) n) /\ ~ In (sym (s_lex st') n) (rule_terminals (s_gram st'))) (s_lex st');
  ss_expr : expr_inv (sevs ++ symbol_defs l) (s_lex st');
  ss_sym : forall k, In k (names evs) -> sym (s_lex st') k = sym (s_lex st) k;
  ss_used_sorted : ssorted Z.ltb (s_used_ignored st');
  ss_used : forall s, In s (s_used_ignored st') <-> In s (s_used_ignored st) \/ (In s (rule_terminals (s_gram st')) /\ In s (x_ignored (s_lex st')));
  ss_gram : exists g, each (define_nonterminal (sym (s_lex st'))) (map parse_def (nonterminals l)) (s_gram st) = Some g /\ s_gram st' = check_nonterminals (check_precedence (parse_language l) (x_terms (s_lex st')) g) }.
Lemma compile_language_defined l st : written_ok l -> ids_ok (g_ids (s_gram st)) ->
  exists st' m, compile_language st (parse_language l) = Some st' /\ ids_ok (g_ids (s_gram st')) /\ x_messages (s_lex st') = x_messages (s_lex st) ++ m.
Proof.
  intros W O. rewrite compile_language_eq. destruct (lex_part_defined l (s_lex st) W) as (x & m & E & M). rewrite E.
  destruct (define_grammar_defined (fun n => TermDictModel.symbol_for_name n (x_terms x)) (nonterminals l) (s_gram st) O) as (g & Eg & Og). rewrite Eg. eexists _, m. split; [reflexivity|]. cbn [s_gram s_lex with_unused x_messages].
  rewrite (proj1 (check_ids _ _ _)). auto.
Qed.
Lemma compile_language_spec l evs explicit U sevs st : written_ok l -> ids_ok (g_ids (s_gram st)) -> lex_inv evs explicit U (s_lex st) -> expr_inv sevs (s_lex st) -> ssorted Z.ltb (s_used_ignored st) ->
  exists st' m, compile_language st (parse_language l) = Some st' /\ ids_ok (g_ids (s_gram st')) /\ x_messages (s_lex st') = x_messages (s_lex st) ++ m /\
  (stage_step l evs explicit U sevs st st' \/ (~ block_consistent sevs evs l /\ error_in m)).
Proof.
  intros W O I J S. rewrite compile_language_eq. destruct (lex_part_spec l (s_lex st) evs explicit U sevs W I J) as (x & m & E & M & R). rewrite E.
  destruct (define_grammar_defined (fun n => TermDictModel.symbol_for_name n (x_terms x)) (nonterminals l) (s_gram st) O) as (g & Eg & Og). rewrite Eg. eexists _, m. split; [reflexivity|]. cbn [s_gram s_lex with_unused x_messages].
  rewrite (proj1 (check_ids _ _ _)). split; [exact Og|]. split; [exact M|]. destruct R as [(C & -> & I' & J' & SS)|R]; [|right; exact R]. left.
  destruct (process_rules_spec g (x_ignored x) (x_unused x) (s_used_ignored st) (li_ignored_sorted _ _ _ _ I') (li_unused_sorted _ _ _ _ I') S) as (P1 & P2 & P3 & P4).
  constructor; cbn [s_gram s_lex s_used_ignored]; rewrite ?rule_terminals_check; try assumption.
  - pose proof (lex_inv_used _ _ _ x (rule_terminals g) _ I' P1 P3) as L. exact L.
  - exists g. split; [exact Eg|reflexivity].
Qed.

(** ** Chains *)
Lemma implicit_names ts : forall known n, (exists k src, In (k, src, n) ts /\ (k = TName -> src = [])) -> In n known \/ In n (names (implicit_defs known ts)).
Proof.
  induction ts as [|[[kd src] m] ts IH]; intros known n (k & s & H & Q); [destruct H|]. cbn [implicit_defs].
  destruct (existsb (name_eqb m) known || match kd, src with TName, _ :: _ => true | _, _ => false end) eqn:B.
  - destruct H as [E|H]; [|apply IH; exists k, s; auto]. injection E as -> -> ->. apply orb_true_iff in B. destruct B as [B|B]; [left; apply existsb_name, B|]. destruct k, s; try discriminate B. discriminate (Q eq_refl).
  - unfold names. cbn [map]. destruct H as [E|H].
    + injection E as -> -> ->. right. left. destruct k; reflexivity.
    + destruct (IH (m :: known) n) as [[->|K]|K]; [exists k, s; auto|right; left; destruct kd; reflexivity|left; exact K|right; right; exact K].
Qed.
Lemma implicit_consistent ts : forall evs, consistent_from true evs (implicit_defs (names evs) ts).
Proof.
  induction ts as [|[[k src] n] ts IH]; intros evs; cbn [implicit_defs consistent_from]; [exact Logic.I|].
  destruct (existsb (name_eqb n) (names evs) || match k, src with TName, _ :: _ => true | _, _ => false end) eqn:B; [apply IH|]. apply orb_false_iff in B. destruct B as [B _].
  assert (EN : df_name (implicit_def k n) = n) by (destruct k; reflexivity). cbn [consistent_from]. split.
  - unfold allowed_def. rewrite EN. replace (lx_add (df_lexeme (implicit_def k n))) with false by (destruct k; reflexivity). replace (lx_replace (df_lexeme (implicit_def k n))) with false by (destruct k; reflexivity). intros H. apply existsb_name in H. unfold names in B. congruence.
  - rewrite (implicit_defs_ext ts (n :: names evs) (names (evs ++ [implicit_def k n]))); [apply IH|]. intros m. unfold names. rewrite map_app, in_app_iff. cbn [map In]. rewrite EN. tauto.
Qed.
Lemma language_implicit_ext l k k' : (forall n, In n k <-> In n k') -> language_implicit k l = language_implicit k' l.
Proof. intros H. unfold language_implicit. apply implicit_defs_ext. intros n. rewrite !in_app_iff, H. reflexivity. Qed.
Lemma language_defs_ext l k k' : (forall n, In n k <-> In n k') -> language_defs k l = language_defs k' l.
Proof. intros H. unfold language_defs. rewrite (language_implicit_ext l k k' H). reflexivity. Qed.
Lemma chain_snoc ls l : forall known,
  chain_defs known (ls ++ [l]) = chain_defs known ls ++ language_defs (names (chain_defs known ls) ++ known) l /\
  chain_implicit known (ls ++ [l]) = chain_implicit known ls ++ language_implicit (names (chain_defs known ls) ++ known) l.
Proof.
  induction ls as [|d ls IH]; intros known; cbn [app chain_defs chain_implicit names map]; [rewrite !app_nil_r; auto|].
  destruct (IH (map df_name (language_defs known d) ++ known)) as [A B]. rewrite A, B, <- !app_assoc.
  assert (E : forall n, In n (names (chain_defs (map df_name (language_defs known d) ++ known) ls) ++ map df_name (language_defs known d) ++ known) <-> In n (names (language_defs known d ++ chain_defs (map df_name (language_defs known d) ++ known) ls) ++ known)).
  { intros n. unfold names. rewrite map_app, !in_app_iff. tauto. }
  rewrite (language_defs_ext l _ _ E), (language_implicit_ext l _ _ E). auto.
Qed.
Lemma chain_defs_snoc ls l : chain_defs [] (ls ++ [l]) = chain_defs [] ls ++ language_defs (names (chain_defs [] ls)) l.
Proof. rewrite (proj1 (chain_snoc ls l [])), app_nil_r. reflexivity. Qed.
Lemma chain_implicit_snoc ls l : chain_implicit [] (ls ++ [l]) = chain_implicit [] ls ++ language_implicit (names (chain_defs [] ls)) l.
Proof. rewrite (proj2 (chain_snoc ls l [])), app_nil_r. reflexivity. Qed.

Lemma chain_consistent_snoc ls l : chain_consistent (ls ++ [l]) <-> chain_consistent ls /\ block_consistent (flat_map symbol_defs ls) (chain_defs [] ls) l.
Proof.
  unfold chain_consistent, block_consistent. rewrite !consistent_iff, flat_map_app, chain_defs_snoc. cbn [flat_map]. rewrite app_nil_r, !consistent_app. cbn [app]. unfold language_defs. rewrite consistent_app.
  assert (C : consistent_from true (chain_defs [] ls ++ explicit_defs l) (language_implicit (names (chain_defs [] ls)) l)).
  { unfold language_implicit. rewrite (implicit_defs_ext _ _ (names (chain_defs [] ls ++ explicit_defs l))); [apply implicit_consistent|]. intros n. unfold names. rewrite map_app, !in_app_iff. tauto. }
  tauto.
Qed.
(** The lexer side of a chain *)
Record chain_lex (ls : list (language simple)) (U : name -> Prop) (st : stage) : Prop := {
  cl_consistent : chain_consistent ls;
  cl_messages : x_messages (s_lex st) = flat_map warns (chain_implicit [] ls);
  cl_lex : lex_inv (chain_defs [] ls) (flat_map explicit_defs ls) U (s_lex st);
  cl_expr : expr_inv (flat_map symbol_defs ls) (s_lex st);
  cl_used : ssorted Z.ltb (s_used_ignored st) }.
Lemma compile_chain_snoc ls l : compile_chain (map parse_language (ls ++ [l])) = match compile_chain (map parse_language ls) with None => None | Some st => compile_language st (parse_language l) end.
Proof.
  unfold compile_chain. rewrite map_app, each_app. destruct (each _ _ _) as [st|]; [|reflexivity]. cbn [map each]. destruct (compile_language _ _); reflexivity.
Qed.
Lemma chain_lex_spec ls : Forall written_ok ls -> exists st, compile_chain (map parse_language ls) = Some st /\ ids_ok (g_ids (s_gram st)) /\
  ((exists U, chain_lex ls U st) \/ (~ chain_consistent ls /\ error_in (x_messages (s_lex st)))).
Proof.
  induction ls as [|l ls IH] using rev_ind; intros W.
  - exists new_stage. split; [reflexivity|]. split; [exists []; constructor|]. left. exists (fun _ => False). constructor; cbn [chain_defs chain_implicit flat_map new_stage s_lex s_used_ignored].
    + split; apply consistent_iff; exact Logic.I.
    + reflexivity.
    + apply lex_inv_new.
    + split; [constructor|]. intros n. constructor.
    + constructor.
  - apply Forall_app in W. destruct W as [W Wl]. inversion Wl as [|? ? Wl1 _]. subst. destruct (IH W) as (st & E & O & R). rewrite compile_chain_snoc, E. destruct R as [[U C]|[C ER]].
    + destruct (compile_language_spec l _ _ _ _ st Wl1 O (cl_lex _ _ _ C) (cl_expr _ _ _ C) (cl_used _ _ _ C)) as (st' & m & E' & O' & M' & R'). exists st'. split; [exact E'|]. split; [exact O'|]. destruct R' as [SS|[B ER]].
      * left. eexists. constructor.
        -- apply chain_consistent_snoc. split; [apply C|apply SS].
        -- rewrite (ss_messages _ _ _ _ _ _ _ SS), (cl_messages _ _ _ C), chain_implicit_snoc, flat_map_app. reflexivity.
        -- rewrite chain_defs_snoc, flat_map_app. cbn [flat_map]. rewrite app_nil_r. apply SS.
        -- rewrite flat_map_app. cbn [flat_map]. rewrite app_nil_r. apply SS.
        -- apply SS.
      * right. split; [rewrite chain_consistent_snoc; intros [_ H]; exact (B H)|]. destruct ER as (x & H1 & H2). exists x. split; [rewrite M'; apply in_or_app; right; exact H1|exact H2].
    + destruct (compile_language_defined l st Wl1 O) as (st' & m & E' & O' & M'). exists st'. split; [exact E'|]. split; [exact O'|]. right. split; [rewrite chain_consistent_snoc; intros [H _]; exact (C H)|].
      destruct ER as (x & H1 & H2). exists x. split; [rewrite M'; apply in_or_app; left; exact H1|exact H2].
Qed.

(** ** The grammar side of a chain *)
Lemma terminals_known ls : Forall unqualified ls -> forall l k src n, In l ls -> In (k, src, n) (terminals_of l) -> In n (names (chain_defs [] ls)).
Proof.
  induction ls as [|l0 ls IH] using rev_ind; intros Q l k src n Hl H; [destruct Hl|]. apply Forall_app in Q. destruct Q as [Q Q0]. inversion Q0 as [|? ? Q1 _]. subst. rewrite chain_defs_snoc. unfold names. rewrite map_app, in_app_iff. apply in_app_or in Hl. destruct Hl as [Hl|[<-|[]]].
  - left. eapply IH; eassumption.
  - unfold language_defs. rewrite map_app, in_app_iff. destruct (implicit_names (terminals_of l0) (map df_name (explicit_defs l0) ++ names (chain_defs [] ls)) n) as [K|K].
    + exists k, src. split; [exact H|]. intros ->. apply (Q1 src n H).
    + apply in_app_or in K. destruct K as [K|K]; [right; left; exact K|left; exact K].
    + right. right. exact K.
Qed.
Lemma chain_nonterminals_snoc ls l : chain_nonterminals (ls ++ [l]) = chain_nonterminals ls ++ nonterminals l.
Proof. unfold chain_nonterminals. rewrite flat_map_app. cbn [flat_map]. rewrite app_nil_r. reflexivity. Qed.
Lemma production_terminals ls n p t : In p (chain_productions ls n) -> In t (tms_all p) -> exists l k src, In l ls /\ In (k, src, t) (terminals_of l).
Proof.
  intros H T. apply live_productions_in in H. destruct H as (d & Hd & _ & Hp). unfold chain_nonterminals in Hd. apply in_flat_map in Hd. destruct Hd as (l & Hl & Hd). unfold tms_all in T. apply in_map_iff in T. destruct T as ([[k src] t0] & E & T). cbn [snd] in E. subst t0.
  exists l, k, src. split; [exact Hl|]. unfold terminals_of, productions_of. apply in_flat_map. exists p. split; [apply in_flat_map; exists d; auto|exact T].
Qed.
Lemma plain_in_tms p t : In t (flat_map plain_terminals p) -> In t (tms_all p).
Proof.
  assert (ALL : forall l, Forall (fun s => In t (plain_terminals s) -> exists k src, In (k, src, t) (terminals_in s)) l -> In t (flat_map plain_terminals l) -> exists k src, In (k, src, t) (flat_map terminals_in l)).
  { induction 1 as [|s l E F IH]; cbn [flat_map]; [intros []|]. intros H. apply in_app_or in H. destruct H as [H|H]; [destruct (E H) as (k & src & K)|destruct (IH H) as (k & src & K)]; exists k, src; apply in_or_app; auto. }
  assert (ONE : forall s, In t (plain_terminals s) -> exists k src, In (k, src, t) (terminals_in s)).
  { induction s as [src n|k src n|a more Ha Hm|s IH|s IH|s IH|a more Ha Hm] using simple_rect'; cbn [plain_terminals terminals_in]; try assumption; try (intros []; fail).
    - intros [<-|[]]. exists k, src. left. reflexivity.
    - cbn [flat_map]. intros H. apply in_app_or in H. destruct H as [H|H].
      + destruct (ALL a Ha H) as (k & src & K). exists k, src. apply in_or_app. left. exact K.
      + apply in_flat_map in H. destruct H as (l & Hl & H). rewrite Forall_forall in Hm. destruct (ALL l (Hm l Hl) H) as (k & src & K). exists k, src. apply in_or_app. right. apply in_flat_map. exists l. auto. }
  intros H. destruct (ALL p) as (k & src & K); [apply Forall_forall; intros s _; apply ONE|exact H|]. unfold tms_all. apply in_map_iff. exists (k, src, t). auto.
Qed.
Lemma uses_known ls t : Forall unqualified ls -> uses (chain_productions ls) t -> In t (names (chain_defs [] ls)).
Proof. intros Q (n & p & Hp & Ht). destruct (production_terminals ls n p t Hp (plain_in_tms p t Ht)) as (l & k & src & Hl & H). eapply terminals_known; eassumption. Qed.
Lemma unused_snoc ls l n : unused (ls ++ [l]) n <-> (unused ls n \/ adds (language_defs (names (chain_defs [] ls)) l) n) /\ ~ uses (chain_productions (ls ++ [l])) n.
Proof.
  split.
  - intros H. remember (ls ++ [l]) as k eqn:K. destruct H as [ls0 l0 e H1 H2 H3|ls0 l0 m H1 H2]; apply app_inj_tail in K; destruct K as [-> ->].
    + split; [right; exists e; auto|exact H3].
    + split; [left; exact H1|exact H2].
  - intros [[H|(e & H1 & -> & H2)] N]; [apply unused_still|apply unused_new]; assumption.
Qed.
Record chain_gram (ls : list (language simple)) (st : stage) : Prop := {
  cg_gram : gram_inv (sym (s_lex st)) (chain_productions ls) (mentioned_in (chain_nonterminals ls)) (s_gram st);
  cg_used : forall s, In s (s_used_ignored st) <-> exists n, used_ignored ls n /\ s = sym (s_lex st) n;
  cg_messages : forall m, In m (g_messages (s_gram st)) <-> (exists n, m = DuplicateNonterminal n /\ duplicate_nonterminal ls n) \/ (exists n, m = UndefinedNonterminal n /\ undefined_nt ls n) \/ (exists n, m = UndefinedTerminal n /\ undefined_precedence ls n) }.
Lemma defs_messages_in defs m : forall before, In m (defs_messages before defs) <-> exists pre d post, defs = pre ++ d :: post /\ m = DuplicateNonterminal (nd_name d) /\ nd_kind d = Assignment /\ live_productions (nd_name d) (before ++ pre) <> [].
Proof.
  induction defs as [|d defs IH]; intros before; cbn [defs_messages].
  - split; [intros []|intros (pre & d & post & H & _); destruct pre; discriminate H].
  - rewrite in_app_iff, IH. split.
    + intros [H|(pre & e & post & -> & H)].
      * exists [], d, defs. rewrite app_nil_r. unfold def_messages in H. destruct (nd_kind d) eqn:K; try (destruct H; fail). destruct (live_productions (nd_name d) before) eqn:L; [destruct H|]. destruct H as [<-|[]]. repeat split; auto. discriminate.
      * exists (d :: pre), e, post. rewrite <- app_assoc in H. split; [reflexivity|exact H].
    + intros (pre & e & post & E & M & K & L). destruct pre as [|x pre].
      * injection E as -> ->. left. rewrite app_nil_r in L. unfold def_messages. rewrite K. destruct (live_productions (nd_name e) before) eqn:LL; [congruence|]. left. auto.
      * injection E as -> ->. right. exists pre, e, post. rewrite <- app_assoc. auto.
Qed.
Lemma undefined_nonterminals_in tm prods mentioned g m : gram_inv tm prods mentioned g ->
  In m (flat_map (undefined_nonterminal g) (id_range (g_ids g))) <-> exists n, m = UndefinedNonterminal n /\ mentioned n /\ prods n = [].
Proof.
  intros I. pose proof (gm_ids _ _ _ _ I) as O. rewrite in_flat_map. split.
  - intros (id & Hid & H). unfold undefined_nonterminal in H. destruct (item_with_identifier id (g_ids g)) as [| | |s|s|pr its|kd rs] eqn:E; try (destruct H; fail).
    unfold item_with_identifier in E. destruct (mfind Z.ltb id (id_item (g_ids g))) as [i|] eqn:F; [|discriminate E]. subst i. pose proof O as [log A]. pose proof (items_after _ _ A) as II.
    apply (mfind_in _ Zltb_strict _ (nb_back _ _ _ (ii_numbering _ _ II))) in F. apply (nb_inv _ _ _ (ii_numbering _ _ II)) in F. destruct (nonterminal_item _ O s id F) as [-> [n Hn]].
    destruct (rules_of (g_rules g) s) eqn:R; [|destruct H]. destruct H as [<-|[]]. exists n.
    assert (NM : name_for_nonterminal s (g_ids g) = n) by (unfold name_for_nonterminal; apply (ii_inv _ _ II) in Hn; rewrite (proj2 (mfind_in _ Zltb_strict _ (ii_back _ _ II) _ _) Hn); reflexivity).
    assert (K : known (g_ids g) n) by (exists s; exact Hn). split; [congruence|]. split; [apply (gm_known _ _ _ _ I), K|]. rewrite <- (nt_of_in _ _ _ O Hn), (gm_rules _ _ _ _ I n K) in R. destruct (prods n); [reflexivity|discriminate R].
  - intros (n & -> & M & P). apply (gm_known _ _ _ _ I) in M. exists (nt_of (g_ids g) n). split; [apply nt_of_range; assumption|]. pose proof (nt_of_known _ n O M) as Hn. pose proof O as [log A]. pose proof (items_after _ _ A) as II.
    unfold undefined_nonterminal, item_with_identifier. pose proof (ii_item _ _ II _ _ Hn) as Hi. apply (nb_inv _ _ _ (ii_numbering _ _ II)) in Hi. rewrite (proj2 (mfind_in _ Zltb_strict _ (nb_back _ _ _ (ii_numbering _ _ II)) _ _) Hi).
    rewrite (gm_rules _ _ _ _ I n M), P. cbn [map]. left. f_equal. unfold name_for_nonterminal. apply (ii_inv _ _ II) in Hn. rewrite (proj2 (mfind_in _ Zltb_strict _ (ii_back _ _ II) _ _) Hn). reflexivity.
Qed.
Lemma undefined_names_in l d m : In m (undefined_names l d) <-> exists n, m = UndefinedTerminal n /\ In n l /\ TermDictModel.symbol_for_name n d < 0.
Proof.
  unfold undefined_names. rewrite in_flat_map. split.
  - intros (n & H & K). destruct (Z.ltb_spec (TermDictModel.symbol_for_name n d) 0); [|destruct K]. destruct K as [<-|[]]. exists n. auto.
  - intros (n & -> & H & L). exists n. split; [exact H|]. rewrite (proj2 (Z.ltb_lt _ _) L). left. reflexivity.
Qed.
Lemma precedence_parse l : precedence_names (parse_language l) = precedence_names l.
Proof. unfold precedence_names, parse_language. induction l as [|u l IH]; [reflexivity|]. cbn [map flat_map]. rewrite IH. destruct u; reflexivity. Qed.
Lemma snoc_split {X} (ls : list X) l ls1 x ls2 : ls ++ [l] = ls1 ++ x :: ls2 -> (ls2 = [] /\ ls1 = ls /\ x = l) \/ (exists ls3, ls2 = ls3 ++ [l] /\ ls = ls1 ++ x :: ls3).
Proof.
  intros H. destruct ls2 as [|y ls2 _] using rev_ind; [left; apply app_inj_tail in H; destruct H; auto|]. right. exists ls2. change (ls1 ++ x :: ls2 ++ [y]) with (ls1 ++ (x :: ls2) ++ [y]) in H. rewrite app_assoc in H. apply app_inj_tail in H. destruct H as [-> ->]. auto.
Qed.
Lemma chain_gram_spec ls : Forall written_ok ls -> Forall unqualified ls -> chain_consistent ls -> exists st, compile_chain (map parse_language ls) = Some st /\ chain_lex ls (unused ls) st /\ chain_gram ls st.
Proof.
  induction ls as [|l ls IH] using rev_ind; intros W Q CC.
  - exists new_stage. split; [reflexivity|]. split.
    + constructor; cbn [chain_defs chain_implicit flat_map new_stage s_lex s_used_ignored]; try assumption; try reflexivity.
      * eapply lex_inv_ext; [|apply lex_inv_new]. intros n. split; [intros []|]. intros H. remember [] as k eqn:K. destruct H as [ls0 l0 e H1 H2 H3|ls0 l0 m H1 H2]; destruct ls0; discriminate K.
      * split; [constructor|]. intros n. constructor.
      * constructor.
    + constructor; cbn [new_stage s_lex s_gram s_used_ignored].
      * eapply gram_inv_ext; [| |apply gram_inv_new]; [reflexivity|]. intros n. split; [intros []|intros (d & [] & _)].
      * intros s. split; [intros []|]. intros (n & (ls1 & ls2 & E & (k & p & Hp & _) & _) & _). symmetry in E. apply app_eq_nil in E. destruct E as [-> _]. destruct Hp.
      * intros m. split; [intros []|]. intros [(n & _ & (b & d & a & E & _))|[(n & _ & (b & d & a & E & _))|(n & _ & (b & d & a & E & _))]]; symmetry in E; apply app_eq_nil in E; destruct E as [_ E]; discriminate E.
  - apply Forall_app in W. destruct W as [W Wl]. inversion Wl as [|? ? Wl1 _]. subst. pose proof Q as QQ. apply Forall_app in Q. destruct Q as [Q Ql]. apply chain_consistent_snoc in CC. destruct CC as [CC CB].
    destruct (IH W Q CC) as (st & E & C & G). rewrite compile_chain_snoc, E. pose proof (gm_ids _ _ _ _ (cg_gram _ _ G)) as O.
    destruct (compile_language_spec l _ _ _ _ st Wl1 O (cl_lex _ _ _ C) (cl_expr _ _ _ C) (cl_used _ _ _ C)) as (st' & m & E' & O' & M' & R'). destruct R' as [SS|[B _]]; [|contradiction]. exists st'. split; [exact E'|].
    destruct (ss_gram _ _ _ _ _ _ _ SS) as (g & Eg & Es).
    assert (G0 : gram_inv (sym (s_lex st')) (fun n => live_productions n (chain_nonterminals ls)) (mentioned_in (chain_nonterminals ls)) (s_gram st)).
    { eapply gram_inv_terms; [|apply G]. intros n p t Hp Ht. symmetry. apply (ss_sym _ _ _ _ _ _ _ SS). destruct (production_terminals ls n p t Hp Ht) as (l0 & k & src & Hl & H). eapply terminals_known; eassumption. }
    destruct (define_nonterminals_spec _ (nonterminals l) _ _ G0) as (g2 & Eg2 & Mg & Ig). rewrite Eg in Eg2. injection Eg2 as <-. rewrite <- chain_nonterminals_snoc in Ig.
    assert (I2 : gram_inv (sym (s_lex st')) (chain_productions (ls ++ [l])) (mentioned_in (chain_nonterminals (ls ++ [l]))) (s_gram st')).
    { rewrite Es, check_nonterminals_spec, check_precedence_spec. apply gram_inv_messages, gram_inv_messages. exact Ig. }
    assert (L1 : lex_inv (chain_defs [] (ls ++ [l])) (flat_map explicit_defs (ls ++ [l])) (unused (ls ++ [l])) (s_lex st')).
    { rewrite flat_map_app. cbn [flat_map]. rewrite app_nil_r. pose proof (ss_lex _ _ _ _ _ _ _ SS) as L0. rewrite <- chain_defs_snoc in L0. eapply lex_inv_ext; [|exact L0]. intros n. rewrite unused_snoc.
      assert (D : (unused ls n \/ adds (language_defs (names (chain_defs [] ls)) l) n) -> In n (names (chain_defs [] (ls ++ [l])))).
      { rewrite chain_defs_snoc. unfold names. rewrite map_app, in_app_iff. intros [H|(e & H1 & -> & _)]; [left; apply (li_unused_known _ _ _ _ (cl_lex _ _ _ C)), H|right; apply in_map, H1]. }
      assert (EQ : (unused ls n \/ adds (language_defs (names (chain_defs [] ls)) l) n) -> (In (sym (s_lex st') n) (rule_terminals (s_gram st')) <-> uses (chain_productions (ls ++ [l])) n)).
      { intros H. rewrite (rule_terminals_spec _ _ _ _ _ I2). split; [|intros K; exists n; auto]. intros (t & K & Et). apply (lex_inv_inj _ _ _ _ n t L0 (D H)) in Et. subst t. exact K. }
      tauto. }
    split.
    + constructor.
      * apply chain_consistent_snoc. split; assumption.
      * rewrite (ss_messages _ _ _ _ _ _ _ SS), (cl_messages _ _ _ C), chain_implicit_snoc, flat_map_app. reflexivity.
      * exact L1.
      * rewrite flat_map_app. cbn [flat_map]. rewrite app_nil_r. apply SS.
      * apply SS.
    + constructor.
      * exact I2.
      * intros s. rewrite (ss_used _ _ _ _ _ _ _ SS), (cg_used _ _ G), (rule_terminals_spec _ _ _ _ _ I2), (li_ignored_set _ _ _ _ L1). split.
        -- intros [(n & (ls1 & ls2 & Els & HU & (e & He1 & He2 & He3)) & ->)|[(t & HU & ->) (e & He1 & He2 & Et)]].
           ++ exists n. split; [exists ls1, (ls2 ++ [l]); rewrite Els, <- app_assoc; split; [reflexivity|]; split; [exact HU|]; exists e; auto|]. symmetry. apply (ss_sym _ _ _ _ _ _ _ SS).
              assert (K : In n (names (chain_defs [] ls1))) by (rewrite <- He2; apply in_map, He1). rewrite Els. clear - K. induction ls2 as [|x ls2 IH2] using rev_ind; [rewrite app_nil_r; exact K|]. rewrite app_assoc, chain_defs_snoc. unfold names. rewrite map_app. apply in_or_app. left. exact IH2.
           ++ exists t. split; [|reflexivity]. exists (ls ++ [l]), []. rewrite app_nil_r. split; [reflexivity|]. split; [exact HU|]. exists e. split; [exact He1|]. split; [|exact He2].
              symmetry. apply (lex_inv_inj _ _ _ _ t (df_name e) L1); [apply uses_known; assumption|exact Et].
        -- intros (n & (ls1 & ls2 & Els & HU & (e & He1 & He2 & He3)) & ->). destruct ls2 as [|x ls2 _] using rev_ind.
           ++ rewrite app_nil_r in Els. subst ls1. right. split; [exists n; auto|]. exists e. rewrite He2. auto.
           ++ rewrite app_assoc in Els. apply app_inj_tail in Els. destruct Els as [-> ->]. left. exists n. split; [exists ls1, ls2; split; [reflexivity|]; split; [exact HU|]; exists e; auto|].
              apply (ss_sym _ _ _ _ _ _ _ SS). rewrite <- He2. assert (K : In (df_name e) (names (chain_defs [] ls1))) by (apply in_map, He1). clear - K. induction ls2 as [|x ls2 IH2] using rev_ind; [rewrite app_nil_r; exact K|]. rewrite app_assoc, chain_defs_snoc. unfold names. rewrite map_app. apply in_or_app. left. exact IH2.
      * intros y. rewrite Es, check_nonterminals_spec. cbn [with_g_messages g_messages]. rewrite in_app_iff, check_precedence_spec. cbn [with_g_messages g_messages]. rewrite in_app_iff, Mg, in_app_iff, (cg_messages _ _ G), precedence_parse, undefined_names_in, defs_messages_in.
        rewrite (undefined_nonterminals_in (sym (s_lex st')) (chain_productions (ls ++ [l])) (mentioned_in (chain_nonterminals (ls ++ [l]))) _ y (gram_inv_messages _ _ _ _ _ Ig)).
        unfold duplicate_nonterminal, undefined_nt, undefined_precedence. rewrite chain_nonterminals_snoc. split.
        -- intros [[[[(n & -> & (b & d & a & Ed & H))|[(n & -> & (l1 & x & l2 & El & H))|(n & -> & (l1 & x & l2 & El & H))]]|(b & d & a & Ed & -> & H)]|(n & -> & H1 & H2)]|(n & -> & H)].
           ++ left. exists n. split; [reflexivity|]. exists b, d, (a ++ nonterminals l). rewrite Ed, <- app_assoc. auto.
           ++ right. left. exists n. split; [reflexivity|]. exists l1, x, (l2 ++ [l]). rewrite El, <- app_assoc. auto.
           ++ right. right. exists n. split; [reflexivity|]. exists l1, x, (l2 ++ [l]). rewrite El, <- app_assoc. auto.
           ++ left. exists (nd_name d). split; [reflexivity|]. exists (chain_nonterminals ls ++ b), d, a. rewrite Ed, <- app_assoc. destruct H. auto.
           ++ right. right. exists n. split; [reflexivity|]. exists ls, l, []. split; [reflexivity|]. split; [exact H1|]. intros K. apply (lex_inv_known _ _ _ _ n L1) in K. unfold sym in K. lia.
           ++ right. left. exists n. split; [reflexivity|]. exists ls, l, []. split; [reflexivity|]. rewrite chain_nonterminals_snoc in *. exact H.
        -- intros [(n & -> & (b & d & a & Ed & H1 & H2 & H3))|[(n & -> & (l1 & x & l2 & El & H))|(n & -> & (l1 & x & l2 & El & H))]].
           ++ left. left. assert (CASES : (exists a2, a = a2 ++ nonterminals l /\ chain_nonterminals ls = b ++ d :: a2) \/ (exists b2, b = chain_nonterminals ls ++ b2 /\ nonterminals l = b2 ++ d :: a)).
              { clear - Ed. revert b Ed. generalize (chain_nonterminals ls). intros k. induction k as [|y k IH]; intros b Ed; [right; exists b; auto|]. destruct b as [|z b]; [injection Ed as -> <-; left; exists k; auto|]. injection Ed as -> Ed.
                destruct (IH b Ed) as [(a2 & -> & ->)|(b2 & -> & ->)]; [left; exists a2; auto|right; exists b2; auto]. }
              destruct CASES as [(a2 & -> & E2)|(b2 & -> & E2)]; [left; left; exists n; split; [reflexivity|]; exists b, d, a2; auto|right; exists b2, d, a; subst n; auto].
           ++ apply snoc_split in El. destruct El as [(-> & -> & ->)|(l3 & -> & ->)]; [right; exists n; rewrite chain_nonterminals_snoc in *; auto|left; left; left; right; left; exists n; split; [reflexivity|]; exists l1, x, l3; auto].
           ++ apply snoc_split in El. destruct El as [(-> & -> & ->)|(l3 & -> & ->)]; [|left; left; left; right; right; exists n; split; [reflexivity|]; exists l1, x, l3; auto]. left. right. exists n. split; [reflexivity|]. split; [apply H|].
              destruct (Z.lt_ge_cases (sym (s_lex st') n) 0) as [K|K]; [exact K|]. exfalso. apply (proj2 H), (lex_inv_known _ _ _ _ n L1), K.
Qed.
