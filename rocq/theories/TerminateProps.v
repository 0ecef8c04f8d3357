(** C43: parsing comes to an end, with a defined result. *)
From Verif Require Import Base OrdMap GrammarModel GrammarProofs FirstModel FirstSpec FirstProofs FirstProps FollowModel FollowSpec FollowProofs FollowProps LrItemModel LrItemProofs ClosureModel ClosureSpec ClosureProofs ClosureTermProofs ClosureProps MachineModel MachineProofs BuilderModel BuilderSpec BuilderProofs BuilderLookProofs BuilderTermProofs BuilderProps ActionModel ActionSpec ActionProofs ActionProps TableModel TableProofs TableProps RunModel RunSpec RunProofs RunTableProofs RunTool RunFuelProofs RunProps ConflictModel ConflictSpec ConflictProofs ConflictProps DriveProofs CompleteProofs CompleteProps TerminateProofs.
Local Open Scope Z_scope.

Section Ends.
  Context rid rule_of ident sort (sort_weak : list (Z * Z) -> list (Z * Z)) first_of rules u busy languages actss m guards (PP : plain_parser rid rule_of ident sort first_of rules u busy languages actss m guards) (RF : right_first rules first_of u) (NC : no_conflict rid first_of rules u busy languages m guards).
  Let BU := pp_buildable _ _ _ _ _ _ _ _ _ _ _ _ PP.
  Let B := pp_built _ _ _ _ _ _ _ _ _ _ _ _ PP.
  Let LM := built_machine _ _ _ _ _ _ _ _ BU B.
  Context (L : Type) (matched : L -> Z) (renamed : Z -> L -> L) (V : Type) (shift_value : option L -> V) (reduce_value : Z -> Z -> list V -> V).
  Notation parse := (parse (make_tables rid rule_of ident sort sort_weak actss []) L matched renamed V shift_value reduce_value).
  Notation acts_of := (lalr_action rules first_of languages (kernel m) (step m)).
  Context (l : item) (q0 : Z) (KQ : forall k, kernel m q0 k <-> k = language_start l).

  Lemma plain_offsets q k : kernel m q k -> (l_offset k <= length (r_items (l_rule k)))%nat /\ (l_offset k = O -> top_rule (l_rule k)).
  Proof.
    intros K. pose proof (kernel_state _ _ _ K) as IS. destruct (C54_states_partial _ _ _ _ _ _ _ _ BU B) as (S1 & _). specialize (S1 q IS). destruct S1 as [l0 _ E|from k' p g rest _ _ _ E|from x LS _ _ E]; apply E in K.
    - subst k. split; [cbn; lia|]. intros _. left. reflexivity.
    - subst k. split; [cbn; lia|]. intros _. right. exists p, g. reflexivity.
    - destruct K as (k0 & rest & _ & A & ->). cbn [advance l_rule l_offset]. split; [|discriminate]. unfold after_dot in A. assert (X := skipn_length (l_offset k0) (r_items (l_rule k0))). rewrite A in X. cbn in X. lia.
  Qed.
  Lemma plain_stops w st : top_ok (step m) st -> stops rules first_of languages (kernel m) (step m) w st.
  Proof.
    apply (reductions_end rules first_of languages (kernel m) (step m) LM u (built_closure _ _ _ _ _ _ _ _ BU B) (plain_items _ _ _ _ _ _ _ _ _ _ _ _ PP) (rf_closed _ _ _ RF) (rf_repeat _ _ _ RF) (pp_ends _ _ _ _ _ _ _ _ _ _ _ _ PP)) with (N := length actss).
    - intros i r j U E J. exact (proj2 (proj2 (bu_ordinary _ _ _ _ _ BU i U)) _ _ E J).
    - apply (rf_first _ _ _ RF).
    - eapply plain_decided; eassumption.
    - apply plain_offsets.
    - intros q x n S. destruct (plain_step_kernel _ _ _ _ _ _ _ _ _ _ _ _ PP _ _ _ S) as [k K]. exact (plain_range _ _ _ _ _ _ _ _ _ _ _ _ PP _ _ K).
    - apply (built_step _ _ _ _ _ _ _ _ BU B).
    - apply (plain_step_kernel _ _ _ _ _ _ _ _ _ _ _ _ PP).
  Qed.

  Lemma decided_ok acts : In acts actss -> decided acts.
  Proof. eapply plain_all_decided; eassumption. Qed.
  Lemma goto_ok q x q' : step m q x q' -> (forall s, x <> ITerm s) -> find_goto (make_tables rid rule_of ident sort sort_weak actss []) q (ident x) = Done (Some q').
  Proof. eapply plain_goto. exact PP. Qed.
  Lemma path_kernel qs xs : path (step m) q0 qs xs -> forall q, In q qs -> exists k, kernel m q k.
  Proof.
    induction 1 as [|q qs xs x q' P IH S]; intros p I.
    - destruct I as [<-|[]]. exists (language_start l). apply KQ. reflexivity.
    - destruct I as [<-|I]; [eapply plain_step_kernel; eassumption|apply IH, I].
  Qed.
  Lemma path_top_ok qs xs : path (step m) q0 qs xs -> top_ok (step m) qs.
  Proof. intros P. destruct P as [|q qs xs x q' P S]; [exact Logic.I|exists x; exact S]. Qed.
  Lemma parse_done fuel p n r : parse fuel p = Done r -> (fuel <= n)%nat -> parse n p = Done r.
  Proof. intros H LE. eapply le_done; [apply parse_more; exact LE|exact H]. Qed.

  Definition finishes (st : list (Z * V)) (w : list L) : Prop := exists n, forall calls seen, exists b p, parse n (mkParser (mkRun st calls) w seen) = Done (b, p).
  Lemma move_finishes st w st' w' : move rules first_of languages (kernel m) (step m) rid ident L matched V shift_value reduce_value (st, w) (st', w') -> states_ok (kernel m) V st -> finishes st' w' -> finishes st w.
  Proof.
    intros M OK [n F]. pose proof PP as [_ _ _ _ _ II SO FI].
    destruct (move_process rules first_of languages (kernel m) (step m) u (built_step _ _ _ _ _ _ _ _ BU B) rid rule_of ident sort sort_weak actss [] II SO FI (plain_actions_exact _ _ _ _ _ _ _ _ _ _ _ _ PP) (plain_range _ _ _ _ _ _ _ _ _ _ _ _ PP) (plain_step_kernel _ _ _ _ _ _ _ _ _ _ _ _ PP) decided_ok goto_ok L matched renamed V shift_value reduce_value _ _ M OK) as [_ X]. cbn [fst snd] in X.
    exists (1 + n)%nat. intros calls seen. destruct (X calls n seen) as (calls' & seen' & E). destruct (F calls' seen') as (b & p & G). exists b, p. cbn [Nat.add RunModel.parse]. rewrite E. cbn [bind]. exact G.
  Qed.
  Lemma path_states st xs : path (step m) q0 (map fst st) xs -> states_ok (kernel m) V st.
  Proof. intros P q v I. eapply path_kernel; [exact P|]. apply in_map_iff. exists (q, v). auto. Qed.

  Lemma input_cases : forall q a, acts_of q a -> a_item a = IEoi \/ (exists s, a_item a = ITerm s) ->
    (exists s t, a = mkAction Shift (ITerm s) t no_rule /\ step m q (ITerm s) t) \/
    (exists k, a = mkAction Reduce (a_item a) (-1) (l_rule k) /\ complete_on rules first_of languages (kernel m) (step m) q k (a_item a) /\ ~ top_rule (l_rule k)) \/ a_type a = Accept.
  Proof.
    intros q a A D. destruct A as [x t S X|x t S N1 N2|k x CO IX NT|k x CO IX TR|p g n s GX _ _]; cbn [a_item a_type] in *.
    - left. destruct X as [[s ->]|(p & g & ->)]; [exists s, t; auto|]. destruct D as [D|[s D]]; discriminate D.
    - exfalso. destruct D as [-> |[s ->]]; [|exact (N1 s eq_refl)]. destruct (step_plain _ _ _ _ _ _ _ _ _ _ _ _ PP _ _ _ S) as (X & _). apply X. reflexivity.
    - right. left. exists k. auto.
    - auto.
    - exfalso. destruct GX as [[t S]|[k (_ & _ & LK)]]; [destruct (step_plain _ _ _ _ _ _ _ _ _ _ _ _ PP _ _ _ S) as (_ & _ & X); eapply X; reflexivity|]. apply (look_plain _ _ _ _ _ _ _ _ _ _ _ _ PP RF) in LK. destruct LK as [X|[X|X]]; try discriminate X. eapply (pp_guards _ _ _ _ _ _ _ _ _ _ _ _ PP), X.
  Qed.
  Lemma next_matched w : next_item Z (fun s => s) (map matched w) = next_item L matched w.
  Proof. destruct w; reflexivity. Qed.
  Lemma reduce_finishes w : (forall a w', w = a :: w' -> forall st xs, path (step m) q0 (map fst st) xs -> finishes st w') ->
    forall qs, stops rules first_of languages (kernel m) (step m) (map matched w) qs -> forall st xs, qs = map fst st -> path (step m) q0 qs xs -> finishes st w.
  Proof.
    intros IHW qs ST. induction ST as [qs _ IHS]. intros st xs EQ P. pose proof PP as [_ _ _ _ _ II SO FI]. assert (OK : states_ok (kernel m) V st) by (eapply path_states; rewrite <- EQ; exact P). destruct st as [|[q v] st]; [subst qs; inversion P|]. cbn [map fst] in EQ.
    destruct (path_kernel _ _ P q) as [k0 K0]; [subst qs; left; reflexivity|].
    destruct (state_actions rules first_of languages (kernel m) (step m) u (built_step _ _ _ _ _ _ _ _ BU B) rid rule_of ident sort sort_weak actss [] (plain_actions_exact _ _ _ _ _ _ _ _ _ _ _ _ PP) (plain_range _ _ _ _ _ _ _ _ _ _ _ _ PP) (plain_step_kernel _ _ _ _ _ _ _ _ _ _ _ _ PP) decided_ok goto_ok L renamed V reduce_value q k0 K0) as (nq & acts & EQN & NA & DE & EX).
    destruct (existsb (fun b => item_eqb (a_item b) (next_item L matched w)) acts) eqn:FA.
    - apply existsb_exists in FA. destruct FA as (a & AI & AX). apply item_eqb_spec in AX. assert (D : a_item a = IEoi \/ exists s, a_item a = ITerm s) by (rewrite AX; destruct w; cbn; eauto). pose proof (proj1 (EX a) AI) as AC.
      destruct (input_cases _ _ AC D) as [(s & t & -> & S)|[(k & EA & CO & NT)|TA]].
      + cbn [a_item] in AX. destruct w as [|b w]; [discriminate AX|]. cbn in AX. injection AX as ->. eapply move_finishes; [apply move_shift; exact S|exact OK|]. apply (IHW b w eq_refl _ (ITerm (matched b) :: xs)). cbn [map fst]. constructor; [rewrite <- EQ; exact P|exact S].
      + rewrite AX in CO. pose proof CO as (CL & AD & LK). rewrite EQ in P. destruct (path_reduce rules (kernel m) (step m) LM q0 (mkRule IEmpty [l]) KQ (or_introl eq_refl) q (map fst st) xs k P CL AD NT) as (E & LN & _ & q' & qs' & q'' & KS & S).
        set (n := length (r_items (l_rule k))) in *. assert (KS' : map fst (skipn n ((q, v) :: st)) = q' :: qs') by (rewrite <- KS; change (q :: map fst st) with (map fst ((q, v) :: st)); symmetry; apply skipn_map). destruct (skipn n ((q, v) :: st)) as [|[q1 v1] st1] eqn:SK; [discriminate KS'|]. cbn in KS'. injection KS' as -> <-.
        assert (SPL : (q, v) :: st = firstn n ((q, v) :: st) ++ (q', v1) :: st1) by (rewrite <- SK; symmetry; apply firstn_skipn). assert (LF : length (firstn n ((q, v) :: st)) = n). { apply firstn_length_le. pose proof (path_length _ _ _ _ P) as PL. cbn in PL. rewrite map_length in PL. cbn. lia. }
        set (its := firstn n ((q, v) :: st)) in *. clearbody its.
        eapply move_finishes; [rewrite SPL; apply (move_reduce _ _ _ _ _ _ _ _ _ _ _ _ its q' v1 st1 w q k q'')|exact OK|].
        * rewrite <- SPL. reflexivity.
        * exact CO.
        * exact NT.
        * exact LF.
        * exact S.
        * eapply (IHS (q'' :: q' :: map fst st1)); [|reflexivity|].
          -- rewrite EQ. eapply red_intro; [rewrite next_matched; exact CO|exact NT|exact KS|exact S].
          -- constructor; [|exact S]. rewrite <- KS. exact (path_skipn _ _ n _ _ P LN).
      + exists 1%nat. intros calls seen. subst q. destruct (process_acts rid rule_of ident sort sort_weak actss [] II SO FI L matched renamed V shift_value reduce_value nq st v (mkRun ((Z.of_nat nq, v) :: st) calls) w acts a eq_refl NA DE AI AX 0%nat seen) as [seen' X]. rewrite TA in X. eexists. eexists. cbn [RunModel.parse]. rewrite X. reflexivity.
    - exists 1%nat. intros calls seen. subst q. destruct (process_rejects rid rule_of ident sort sort_weak actss [] II SO FI L matched renamed V shift_value reduce_value nq st v (mkRun ((Z.of_nat nq, v) :: st) calls) w acts eq_refl NA) with (fuel := 0%nat) (seen := seen) as [seen' X].
      + intros a AI AX. assert (Y : existsb (fun b => item_eqb (a_item b) (next_item L matched w)) acts = true) by (apply existsb_exists; exists a; split; [exact AI|apply item_eqb_spec; exact AX]). congruence.
      + eexists. eexists. cbn [RunModel.parse]. rewrite X. reflexivity.
  Qed.
  Lemma all_finish : forall w st xs, path (step m) q0 (map fst st) xs -> finishes st w.
  Proof.
    induction w as [|a w IH]; intros st xs P; (eapply reduce_finishes; [|apply plain_stops; eapply path_top_ok; exact P|reflexivity|exact P]); intros b w' E; [discriminate E|]. injection E as <- <-. exact IH.
  Qed.
End Ends.

(** C43.  If no conflict is reported (and none remains at the end of the input), then parsing ends for every
    input, and meets no undefined behaviour: given enough fuel the parser accepts or rejects.  This is for
    grammars without guards, whose FIRST sets are right, and actions without rewriters. *)
Theorem C43_ends_partial : forall rid rule_of ident sort sort_weak first_of rules u busy languages actss m guards l q,
  plain_parser rid rule_of ident sort first_of rules u busy languages actss m guards -> right_first rules first_of u -> no_conflict rid first_of rules u busy languages m guards ->
  (forall k, kernel m q k <-> k = language_start l) ->
  forall L matched renamed V shift_value reduce_value v0 input,
  exists n b p, forall fuel, (n <= fuel)%nat -> parse (make_tables rid rule_of ident sort sort_weak actss []) L matched renamed V shift_value reduce_value fuel (start_parser L V q v0 input) = Done (b, p).
Proof.
  intros rid rule_of ident sort sort_weak first_of rules u busy languages actss m guards l q PP RF NC KQ L matched renamed V sv rv v0 input.
  destruct (all_finish rid rule_of ident sort sort_weak first_of rules u busy languages actss m guards PP RF NC L matched renamed V sv rv l q KQ input [(q, v0)] [] (path_start _ _)) as [n F]. destruct (F [] 0%nat) as (b & p & X). exists n, b, p. intros fuel LE. eapply parse_done; [exact X|exact LE].
Qed.
Print Assumptions C43_ends_partial.
(** So the parser decides the language. *)
Theorem C43_decides_partial : forall rid rule_of ident sort sort_weak first_of rules u busy languages actss m guards l q,
  plain_parser rid rule_of ident sort first_of rules u busy languages actss m guards -> right_first rules first_of u -> no_conflict rid first_of rules u busy languages m guards ->
  In l languages -> (forall k, kernel m q k <-> k = language_start l) ->
  forall L matched renamed V shift_value reduce_value v0 input,
  exists n b p, (forall fuel, (n <= fuel)%nat -> parse (make_tables rid rule_of ident sort sort_weak actss []) L matched renamed V shift_value reduce_value fuel (start_parser L V q v0 input) = Done (b, p)) /\
    (b = true <-> exists rs, rightmost rules rs [l] (map (fun x => ITerm (matched x)) input)).
Proof.
  intros rid rule_of ident sort sort_weak first_of rules u busy languages actss m guards l q PP RF NC LI KQ L matched renamed V sv rv v0 input.
  destruct (C43_ends_partial _ _ _ _ sort_weak _ _ _ _ _ _ _ _ _ _ PP RF NC KQ L matched renamed V sv rv v0 input) as (n & b & p & F). exists n, b, p. split; [exact F|].
  rewrite <- (C58_language_partial _ _ _ _ sort_weak _ _ _ _ _ _ _ _ _ _ PP RF NC LI KQ L matched renamed V sv rv v0 input). split; [intros ->; exists n, p; apply F; lia|]. intros (fuel & p' & H).
  assert (X := F (Nat.max n fuel) (Nat.le_max_l _ _)). rewrite (parse_done _ _ _ _ sort_weak _ L matched renamed V sv rv fuel _ (Nat.max n fuel) _ H (Nat.le_max_r _ _)) in X. injection X as -> _. reflexivity.
Qed.
Print Assumptions C43_decides_partial.

(** The hypotheses hold for a grammar with empty rules, nested and left recursive: 0 -> t7 1 t5 0 | 2 t6,
    1 -> (nothing) | t8 1, 2 -> 2 t4 | t4. *)
Definition nts_ends : grammar_of := [(0, [[ITerm 7; INonterm 1; ITerm 5; INonterm 0]; [INonterm 2; ITerm 6]]); (1, [[]; [ITerm 8; INonterm 1]]); (2, [[INonterm 2; ITerm 4]; [ITerm 4]])].
Definition items_ends : list item := [INonterm 0; INonterm 1; INonterm 2; ITerm 4; ITerm 5; ITerm 6; ITerm 7; ITerm 8].
Example C43_nontrivial : exists m guards actss,
  plain_parser rule_number (rule_in (all_rules nts_ends items_ends [INonterm 0])) item_number (insertion_sort entry_ltb) (first_by (rules_of nts_ends) 20) (rules_of nts_ends) (fun i => In i items_ends) one_object [INonterm 0] actss m guards /\
  right_first (rules_of nts_ends) (first_by (rules_of nts_ends) 20) (fun i => In i items_ends) /\
  no_conflict rule_number (first_by (rules_of nts_ends) 20) (rules_of nts_ends) (fun i => In i items_ends) one_object [INonterm 0] m guards /\
  (forall k, kernel m 0 k <-> k = language_start (INonterm 0)) /\
  (exists p, tool_ast (tool_tables nts_ends items_ends [INonterm 0] actss []) 40 0 [7; 8; 5; 4; 4; 6] = Done (true, p)) /\
  (exists p, tool_ast (tool_tables nts_ends items_ends [INonterm 0] actss []) 40 0 [7; 8; 4; 6] = Done (false, p)).
Proof.
  destruct (tool nts_ends items_ends [INonterm 0]) as [[[m g] a]|] eqn:E; [|vm_compute in E; discriminate E]. assert (PP := tool_plain_parser _ _ _ _ _ _ E). assert (T := tool_ok _ _ _ _ _ _ E). vm_compute in E. injection E as <- <- <-.
  assert (NG : forall p g, ~ In (IGuard p g) items_ends) by (intros p g X; cbn in X; intuition discriminate). specialize (PP NG).
  eexists. eexists. eexists. split; [exact PP|]. split; [eapply checked_first; [exact T|vm_compute; reflexivity]|]. split; [|split; [|split]].
  - split; [|eapply checked_accept; [exact PP|vm_compute; reflexivity]]. exists no_sources, 50%nat, ([], 0%nat). eexists. split; [constructor; constructor|vm_compute; reflexivity].
  - intros k. split; [intros (s & S & K); vm_compute in S; injection S as <-; destruct K as [<-|[]]; reflexivity|intros ->; eexists; split; [vm_compute; reflexivity|left; reflexivity]].
  - eexists. vm_compute. reflexivity.
  - eexists. vm_compute. reflexivity.
Qed.

(** C43 is false in general: 0 -> t4 | 0.  After t4 and at the end of the input a state can accept and can
    reduce 0 -> 0; no conflict is reported, and the parser reduces for ever. *)
Definition nts_cycle : grammar_of := [(0, [[ITerm 4]; [INonterm 0]])].
Definition items_cycle : list item := [INonterm 0; ITerm 4].
Theorem C43_cycle_refuted : exists m guards actss,
  plain_parser rule_number (rule_in (all_rules nts_cycle items_cycle [INonterm 0])) item_number (insertion_sort entry_ltb) (first_by (rules_of nts_cycle) 20) (rules_of nts_cycle) (fun i => In i items_cycle) one_object [INonterm 0] actss m guards /\
  right_first (rules_of nts_cycle) (first_by (rules_of nts_cycle) 20) (fun i => In i items_cycle) /\
  (exists c', find_conflicts rule_number (first_by (rules_of nts_cycle) 20) (rules_of nts_cycle) one_object no_sources 50 m guards [] ([], 0%nat) = Some ([], c')) /\
  (forall k, kernel m 0 k <-> k = language_start (INonterm 0)) /\
  forall fuel, tool_ast (tool_tables nts_cycle items_cycle [INonterm 0] actss []) fuel 0 [4] = OutOfFuel.
Proof.
  destruct (tool nts_cycle items_cycle [INonterm 0]) as [[[m g] a]|] eqn:E; [|vm_compute in E; discriminate E]. assert (PP := tool_plain_parser _ _ _ _ _ _ E). assert (T := tool_ok _ _ _ _ _ _ E). vm_compute in E. injection E as <- <- <-.
  assert (NG : forall p g, ~ In (IGuard p g) items_cycle) by (intros p g X; cbn in X; intuition discriminate). specialize (PP NG).
  eexists. eexists. eexists. split; [exact PP|]. split; [eapply checked_first; [exact T|vm_compute; reflexivity]|]. split; [eexists; vm_compute; reflexivity|]. split.
  - intros k. split; [intros (s & S & K); vm_compute in S; injection S as <-; destruct K as [<-|[]]; reflexivity|intros ->; eexists; split; [vm_compute; reflexivity|left; reflexivity]].
  - unfold tool_ast, ast_parse. set (t := tool_tables _ _ _ _ _). unfold start_parser.
    assert (ONE : forall p p', process t lex fst lex_renamed (ast lex) ast_shift ast_reduce 0 p = Done (More, p') -> forall fuel, parse t lex fst lex_renamed (ast lex) ast_shift ast_reduce (S fuel) p = parse t lex fst lex_renamed (ast lex) ast_shift ast_reduce fuel p').
    { intros p p' H fuel. cbn [parse]. rewrite (le_done _ _ _ (process_more t lex fst lex_renamed (ast lex) ast_shift ast_reduce 0 fuel p (Nat.le_0_l fuel)) H). reflexivity. }
    assert (LOOP : forall fuel v c seen, parse t lex fst lex_renamed (ast lex) ast_shift ast_reduce fuel (mkParser (mkRun [(2, v); (0, Leaf None)] c) [] seen) = OutOfFuel).
    { induction fuel as [|fuel IH]; intros v c seen; [reflexivity|]. erewrite ONE; [apply IH|]. vm_compute. reflexivity. }
    intros [|[|fuel]]; [reflexivity| |]; (erewrite ONE; [|vm_compute; reflexivity]); [reflexivity|]. erewrite ONE; [apply LOOP|]. vm_compute. reflexivity.
Qed.
Print Assumptions C43_cycle_refuted.
