(** C32 to C35, C37 and C57: what the rewriters do to the actions of a state, and to a parse. *)
From Verif Require Import Base OrdMap GrammarModel GrammarProofs FirstModel FirstProofs FollowModel LrItemModel ClosureModel ClosureSpec MachineModel BuilderModel BuilderSpec BuilderProps ActionModel ActionSpec ActionProofs ActionProps TableModel TableProofs TableProps RunModel RunSpec RunProofs RunTableProofs RunTool RunProps RewriteModel RewriteSpec RewriteProofs RunFuelProofs.
From Coq Require Import Permutation.
Local Open Scope Z_scope.

(** *** C32: ignored symbols *)
(** The set of ignored symbols, after any calls of add_item *)
Definition ignoring (symbols : list item) : iset := fold_left (fun s i => ignored_add i s) symbols [].
Lemma ignoring_ok symbols : set_ok (ignoring symbols) /\ forall i, In i (ignoring symbols) <-> In i symbols.
Proof.
  unfold ignoring. induction symbols as [|x l [S I]] using rev_ind; [split; [constructor|reflexivity]|]. rewrite fold_left_app. cbn [fold_left]. split; [apply (sins_sorted _ item_strict _ S)|]. intros i. unfold ignored_add, iinsert. rewrite (sins_in _ item_strict), I, in_app_iff. cbn. intuition.
Qed.
(** The actions of every state, whatever they were: all are kept, but reductions on ignored symbols
    become weak, and ignored symbols that are not shifted or ignored already get an action to ignore them. *)
Theorem C32_actions : forall symbols q acts, ssorted action_ltb (ignored_rewrite (ignoring symbols) q acts) /\
  forall a, In a (ignored_rewrite (ignoring symbols) q acts) <-> with_ignored symbols q acts a.
Proof.
  intros symbols q acts. destruct (ignoring_ok symbols) as [S I]. destruct (ignored_exact _ S q acts) as [S' E]. split; [exact S'|]. intros a. rewrite E. split; intros [H1 H2|b H1 H2 H3 H4|i H1 H2 H3].
  - apply ignored_kept; [exact H1|]. rewrite <- I. exact H2.
  - eapply ignored_weaker; [exact H1|exact H2|apply I, H3|exact H4].
  - eapply ignored_new; [apply I, H1|exact H2|exact H3].
  - apply ignored_kept; [exact H1|]. rewrite I. exact H2.
  - eapply ignored_weaker; [exact H1|exact H2|apply I, H3|exact H4].
  - eapply ignored_new; [apply I, H1|exact H2|exact H3].
Qed.
Print Assumptions C32_actions.
(** An ignored symbol without an action has exactly one, which ignores it. *)
Theorem C32_one : forall symbols q acts i, In i symbols -> (forall b, In b acts -> a_item b <> i) ->
  exists a, a_type a = Ignore /\ a_item a = i /\ forall b, In b (ignored_rewrite (ignoring symbols) q acts) /\ a_item b = i <-> b = a.
Proof.
  intros symbols q acts i II NA. destruct (C32_actions symbols q acts) as [_ E]. exists (mkAction Ignore i q no_rule). split; [reflexivity|]. split; [reflexivity|]. intros b. rewrite E. split.
  - intros [[H1 H2|c H1 H2 H3 H4|j H1 H2 H3] EI]; [destruct (NA _ H1 EI)|rewrite H4 in EI; destruct (NA _ H1 EI)|]. subst b. cbn in EI. subst j. reflexivity.
  - intros ->. split; [|reflexivity]. eapply ignored_new; [exact II| |reflexivity]. intros c C EC. destruct (NA _ C EC).
Qed.
Print Assumptions C32_one.
(** The other symbols have the actions they had. *)
Theorem C32_others : forall symbols q acts a, ~ In (a_item a) symbols -> In a (ignored_rewrite (ignoring symbols) q acts) <-> In a acts.
Proof.
  intros symbols q acts a NI. destruct (C32_actions symbols q acts) as [_ E]. rewrite E. split.
  - intros [H1 H2|c H1 H2 H3 H4|j H1 H2 H3]; [exact H1|rewrite H4 in NI; contradiction|subst a; contradiction].
  - intros I. apply ignored_kept; [exact I|tauto].
Qed.
Print Assumptions C32_others.
Example C32_actions_example :
  ignored_rewrite (ignoring [ITerm 9; ITerm 8; ITerm 7]) 5 [mkAction Shift (ITerm 1) 6 no_rule; mkAction Shift (ITerm 8) 7 no_rule; mkAction Reduce (ITerm 9) 2 (mkRule (INonterm 3) [ITerm 1])] =
  [mkAction Shift (ITerm 1) 6 no_rule; mkAction Ignore (ITerm 7) 5 no_rule; mkAction Shift (ITerm 8) 7 no_rule; mkAction Ignore (ITerm 9) 5 no_rule; mkAction WeakReduce (ITerm 9) 2 (mkRule (INonterm 3) [ITerm 1])].
Proof. vm_compute. reflexivity. Qed.

(** At run time, in tables without guards: if every state ignores some symbols, then a parse gives the
    same answer, stack and calls as that of the input without these symbols. *)
Theorem C32_run_partial : forall t L matched renamed V shift_value reduce_value ignored,
  no_guards t -> length (t_terminals t) = length (t_nonterminals t) ->
  (forall q s l, ignored s = true -> find_terminal t q s = Some l -> exists e l', l = e :: l' /\ e_symbol e = s /\ e_type e = Ignore) ->
  forall p b run,
  (exists fuel p', parse t L matched renamed V shift_value reduce_value fuel p = Done (b, p') /\ p_run p' = run) <->
  (exists fuel p', parse t L matched renamed V shift_value reduce_value fuel (mkParser (p_run p) (filter (fun l => negb (ignored (matched l))) (p_input p)) (p_seen p)) = Done (b, p') /\ p_run p' = run).
Proof.
  intros t L matched renamed V sv rv ignored NG LN IG p b run. split; intros (fuel & p' & H & R).
  - destruct (drop_ignored t L matched renamed V sv rv NG LN ignored IG fuel p (mkParser (p_run p) (filter (fun l => negb (ignored (matched l))) (p_input p)) (p_seen p)) b p' H eq_refl eq_refl) as (p2 & H2 & R2 & _). exists fuel, p2. split; [exact H2|congruence].
  - destruct (add_ignored t L matched renamed V sv rv NG LN ignored IG fuel p _ b p' H eq_refl eq_refl) as (f & p2 & H2 & R2 & _). exists f, p2. split; [exact H2|congruence].
Qed.
Print Assumptions C32_run_partial.
(** The actions of all states, rewritten *)
Fixpoint rewrite_states (w : rewriter) (q : Z) (actss : list action_set) : list action_set := match actss with [] => [] | acts :: actss => w q acts :: rewrite_states w (q + 1) actss end.
Lemma rewrite_nth w actss : forall q n acts, nth_error (rewrite_states w q actss) n = Some acts <-> exists acts0, nth_error actss n = Some acts0 /\ acts = w (q + Z.of_nat n) acts0.
Proof.
  induction actss as [|a actss IH]; intros q n acts; [destruct n; cbn; split; try discriminate; intros (? & X & _); discriminate X|]. destruct n as [|n]; cbn [rewrite_states nth_error].
  - replace (q + Z.of_nat 0) with q by lia. split; [intros E; injection E as <-; eauto|]. intros (x & E & ->). injection E as <-. reflexivity.
  - rewrite IH. replace (q + 1 + Z.of_nat n) with (q + Z.of_nat (S n)) by lia. reflexivity.
Qed.
Lemma rewrite_length w actss : forall q, length (rewrite_states w q actss) = length actss.
Proof. induction actss; intros q; cbn; [reflexivity|]. f_equal. apply IHactss. Qed.
Lemma made_rows rid rule_of ident sort sort_weak actss weaks : sorts entry_ltb sort -> let t := make_tables rid rule_of ident sort sort_weak actss weaks in
  length (t_terminals t) = length actss /\ length (t_nonterminals t) = length actss.
Proof. intros SO t. destruct (made rid rule_of ident sort sort_weak actss weaks SO) as (ids & _ & _ & T & N & _). split; symmetry; [exact (Forall2_length _ _ _ T)|exact (Forall2_length _ _ _ N)]. Qed.
(** So it is with the tables made from any actions without guards, in which the ignored symbols, which
    are not used, are then ignored by the rewriter. *)
Theorem C32_parse_partial : forall rid rule_of ident sort sort_weak symbols actss weaks,
  sorts entry_ltb sort -> (forall i j, ident i = ident j -> i = j) ->
  (forall acts a, In acts actss -> In a acts -> a_type a <> Guard /\ forall s, In s symbols -> a_item a <> ITerm s) ->
  let actss' := rewrite_states (ignored_rewrite (ignoring (map ITerm symbols))) 0 actss in
  fits rid rule_of actss' ->
  let t := make_tables rid rule_of ident sort sort_weak actss' weaks in
  forall L matched renamed V shift_value reduce_value input q v0 b run,
  let keep (l : L) := negb (existsb (Z.eqb (matched l)) symbols) in
  (exists fuel p', parse t L matched renamed V shift_value reduce_value fuel (start_parser L V q v0 input) = Done (b, p') /\ p_run p' = run) <->
  (exists fuel p', parse t L matched renamed V shift_value reduce_value fuel (start_parser L V q v0 (filter keep input)) = Done (b, p') /\ p_run p' = run).
Proof.
  intros rid rule_of ident sort sort_weak symbols actss weaks SO II OK actss' FI t L matched renamed V sv rv input q v0 b run keep.
  apply (C32_run_partial t L matched renamed V sv rv (fun s => existsb (Z.eqb s) symbols)) with (p := start_parser L V q v0 input).
  - intros l e R I T. assert (X : exists (terminal : bool) q0, row q0 (if terminal then t_terminals t else t_nonterminals t) = Some l).
    { destruct R as [R|R]; apply In_nth_error in R; destruct R as (n & R); [exists true, (Z.of_nat n)|exists false, (Z.of_nat n)]; unfold row; destruct (Z.ltb_spec (Z.of_nat n) 0); try lia; rewrite Nat2Z.id; exact R. }
    destruct X as (terminal & q0 & X). destruct (row_entry rid rule_of ident sort sort_weak actss' weaks SO FI terminal q0 l e X I) as (acts & a & _ & A & AI & _ & [DT _] & _). apply rewrite_nth in A. destruct A as (acts0 & A & ->). apply C32_actions in AI. apply nth_error_In in A. destruct AI as [H1 H2|c H1 H2 H3 H4|j H1 H2 H3]; [apply (OK _ _ A H1); congruence|rewrite H4 in DT; cbn in DT; congruence|subst a; cbn in DT; congruence].
  - destruct (made_rows rid rule_of ident sort sort_weak actss' weaks SO) as [E1 E2]. fold t in E1, E2. congruence.
  - intros q0 s l IS F. apply existsb_exists in IS. destruct IS as (s' & IS & E). apply Z.eqb_eq in E. subst s'. assert (Q : 0 <= q0 /\ exists acts, nth_error actss' (Z.to_nat q0) = Some acts).
    { unfold find_terminal, row in F. destruct (Z.ltb_spec q0 0); [discriminate F|]. split; [assumption|]. destruct (nth_error (t_terminals t) (Z.to_nat q0)) eqn:N; [|discriminate F]. destruct (nth_error actss' (Z.to_nat q0)) eqn:N'; [eauto|]. exfalso. apply nth_error_None in N'. assert (X := proj1 (nth_error_Some _ _) ltac:(rewrite N; discriminate)). destruct (made_rows rid rule_of ident sort sort_weak actss' weaks SO) as [E1 _]. fold t in E1. lia. }
    destruct Q as (Q & acts & A). destruct (C31_terminals_partial rid rule_of ident sort sort_weak actss' weaks (Z.to_nat q0) acts s SO FI A) as (found & m & F' & P & D & _). fold t in F', D. rewrite Z2Nat.id in F' by exact Q. rewrite F in F'. injection F' as <-.
    pose proof A as A'. apply rewrite_nth in A'. destruct A' as (acts0 & A' & ->). apply nth_error_In in A'. destruct (C32_one (map ITerm symbols) (0 + Z.of_nat (Z.to_nat q0)) acts0 (ITerm s)) as (a & T & IA & U); [apply in_map, IS|intros b0 B; apply (OK _ _ A' B), IS|].
    assert (M : forall b0, In b0 m <-> b0 = a). { intros b0. rewrite <- U. split; [intros B; apply (Permutation_in _ P) in B; apply filter_In in B; destruct B as [B1 B2]; apply item_eqb_spec in B2; auto|]. intros [B1 B2]. apply (Permutation_in _ (Permutation_sym P)), filter_In. split; [exact B1|apply item_eqb_spec; exact B2]. }
    destruct m as [|a0 m']; [exfalso; apply (proj2 (M a) eq_refl)|]. assert (a0 = a) by (apply M; left; reflexivity). subst a0. destruct l as [|e l']; [inversion D|]. cbn [scan] in D. destruct (Z.eqb_spec (e_symbol e) s) as [ES|NS]; [|inversion D]. inversion D as [|? ? ? ? [DT _] _]; subst. exists e, l'. split; [reflexivity|]. split; [reflexivity|congruence].
Qed.
Print Assumptions C32_parse_partial.

(** *** C33: weak symbols *)
(** The actions of every state that has an action for some symbol with weak equivalents: they are
    those of [with_weak].  Other states are left as they are. *)
Theorem C33_actions : forall w D q acts, declared w D -> ssorted action_ltb acts -> ssorted action_ltb (weak_rewrite w q acts) /\
  ((forall b s x, In b acts -> a_item b = ITerm s -> ~ D s x) -> weak_rewrite w q acts = acts) /\
  ((exists b s x, In b acts /\ a_item b = ITerm s /\ D s x) -> forall a, In a (weak_rewrite w q acts) <-> with_weak D acts a).
Proof. exact weak_declared. Qed.
Print Assumptions C33_actions.
Lemma weak_cases w D (q : Z) acts : declared w D -> (forall b s x, In b acts -> a_item b = ITerm s -> ~ D s x) \/ exists b s x, In b acts /\ a_item b = ITerm s /\ D s x.
Proof.
  intros DC. destruct (declared_ok _ _ DC) as (_ & _ & _ & T & I & _). destruct (has_strong w acts) eqn:H.
  - right. apply (has_strong_spec w) in H. destruct H as (b & i & B & OT & X). apply terminal_spec in OT. destruct OT as (s & E). destruct (T _ _ X) as (x & ->). exists b, s, x. rewrite E in X. split; [exact B|]. split; [exact E|]. apply I, X.
  - left. intros b s x B E X. assert (Y : has_strong w acts = true); [|congruence]. apply (has_strong_spec w). exists b, (ITerm x). split; [exact B|]. rewrite E. split; [unfold on_terminal; rewrite E; reflexivity|apply I, X].
Qed.
(** A shift action is kept, and a symbol that is not weak has the actions it had. *)
Theorem C33_kept : forall w D q acts a, declared w D -> ssorted action_ltb acts ->
  (a_type a = Shift -> In a acts -> In a (weak_rewrite w q acts)) /\
  ((forall x, a_item a = ITerm x -> ~ weak_one D x) -> In a (weak_rewrite w q acts) <-> In a acts).
Proof.
  intros w D q acts a DC SA. destruct (C33_actions w D q acts DC SA) as (_ & NO & YES). destruct (weak_cases w D q acts DC) as [N|Y]; [rewrite (NO N); split; [auto|reflexivity]|]. split.
  - intros T I. apply (YES Y). apply weak_kept; congruence.
  - intros NW. rewrite (YES Y a). split; [|intros I; apply weak_other; assumption]. intros [H1 _|H1 _ _ _ _|b x H1 H2 H3 _ H4|b s x H1 H2 H3 H4 _ H5]; [exact H1|exact H1| |]; exfalso.
    + apply (NW x); [rewrite H4; exact H2|exact H3].
    + apply (NW x); [rewrite H5; reflexivity|exists s; exact H4].
Qed.
Print Assumptions C33_kept.
(** A weak symbol that the state has no action for (guards apart) gets those of the strong one, with
    shifts that make it strong, and no others. *)
Theorem C33_strong_partial : forall w D q acts s x, declared w D -> ssorted action_ltb acts -> D s x -> ~ weak_one D s -> (forall s', D s' x -> s' = s) -> ~ has_own acts x ->
  forall a, a_item a = ITerm x -> a_type a <> Guard ->
  In a (weak_rewrite w q acts) <-> exists b, In b acts /\ a_item b = ITerm s /\ as_strong x b a.
Proof.
  intros w D q acts s x DC SA DX NW U NO a EA NG. destruct (C33_actions w D q acts DC SA) as (_ & SAME & YES). destruct (weak_cases w D q acts DC) as [N|Y].
  - rewrite (SAME N). split; [intros I; exfalso; apply NO; exists a; auto|]. intros (b & B & EB & _). destruct (N _ _ _ B EB DX).
  - rewrite (YES Y a). split.
    + intros [H1 _|H1 _ _ _ _|b y H1 H2 H3 HR H4|b s' y H1 H2 H3 H4 _ H5].
      * exfalso. apply NO. exists a. auto.
      * exfalso. apply NO. exists a. auto.
      * exfalso. apply NO. exists b. rewrite H4 in EA. cbn in EA. split; [exact H1|]. split; [exact EA|]. destruct HR as [-> | ->]; discriminate.
      * rewrite H5 in EA. cbn in EA. injection EA as ->. apply U in H4. subst s'. exists b. auto.
    + intros (b & B & EB & AS). eapply weak_strong; eassumption.
Qed.
Print Assumptions C33_strong_partial.
(** What a state that only reduces on the weak symbol does is not that: it does not get the shift of the
    strong symbol, as a count that is never negative is tested for being so. *)
Theorem C33_reduce_refuted : exists w D acts s x, declared w D /\ ssorted action_ltb acts /\ D s x /\
  (exists b, In b acts /\ a_type b = Shift /\ a_item b = ITerm s) /\ (forall b, In b acts -> a_item b = ITerm x -> a_type b = Reduce) /\
  forall q a, In a (weak_rewrite w q acts) -> a_item a = ITerm x -> a_type a = WeakReduce.
Proof.
  exists (weak_add (ITerm 1) [ITerm 2] no_weak), (fun s' y => False \/ s' = 1 /\ In (ITerm y) [ITerm 2]), [mkAction Shift (ITerm 1) 5 no_rule; mkAction Reduce (ITerm 2) 0 (mkRule (INonterm 1) [ITerm 3])], 1, 2.
  split; [apply declared_add; [constructor|repeat constructor|intros i [<- |[]]; eauto]|]. split; [repeat constructor|]. split; [cbn; auto|]. split; [eexists; cbn; eauto|]. split; [intros b [<- |[<- |[]]]; cbn; congruence|]. intros q a I E. vm_compute in I. destruct I as [<- |[<- |[]]]; cbn in *; congruence.
Qed.
Print Assumptions C33_reduce_refuted.
Example C33_example :
  let w := weak_add (ITerm 1) [ITerm 2; ITerm 3] no_weak in
  weak_rewrite w 0 [mkAction Shift (ITerm 1) 5 no_rule; mkAction Shift (ITerm 3) 6 no_rule; mkAction Shift (ITerm 4) 7 no_rule] =
  [mkAction Shift (ITerm 1) 5 no_rule; mkAction ShiftStrong (ITerm 2) 5 no_rule; mkAction Shift (ITerm 3) 6 no_rule; mkAction Shift (ITerm 4) 7 no_rule].
Proof. vm_compute. reflexivity. Qed.

(** *** C34: precedence *)
(** Whatever the precedences are: exactly the actions that lose are removed. *)
Theorem C34_actions : forall precedence assoc state_items q acts, ssorted action_ltb acts -> ssorted action_ltb (precedence_rewrite precedence assoc state_items q acts) /\
  forall a, In a (precedence_rewrite precedence assoc state_items q acts) <-> In a acts /\ ~ loses (fun i => precedence i []) (fun i => assoc i []) (fun i => precedence i (shift_items state_items q i)) acts a.
Proof. exact precedence_exact. Qed.
Print Assumptions C34_actions.
(** The precedence of a symbol is the number of the last level of the block that lists it. *)
Theorem C34_levels : forall b s l, (forall n, block_precedence b (ITerm s) l = Some n <-> 0 <= s /\ exists k a, last_level b s k a /\ n = Z.of_nat k) /\
  (forall k a, 0 <= s -> last_level b s k a -> block_associativity b (ITerm s) l = match a with Left_assoc => Left_assoc | Right_assoc => Right_assoc | _ => Nonassoc end).
Proof. intros b s l. destruct (block_exact b s l) as [E1 E2]. split; [exact E1|exact E2]. Qed.
Print Assumptions C34_levels.
(** [r] has one symbol with a level in the block, [o] *)
Definition block_operator (b : precedence_block) (r : rule) (o : Z) : Prop :=
  exists before after, r_items r = before ++ ITerm o :: after /\ (forall s, In (ITerm s) (before ++ after) -> forall n a, 0 <= s -> ~ last_level b s n a).
Lemma level_none b s l : block_precedence b (ITerm s) l = None <-> forall n a, 0 <= s -> ~ last_level b s n a.
Proof.
  destruct (C34_levels b s l) as [E _]. split.
  - intros N n a P L. assert (X : block_precedence b (ITerm s) l = Some (Z.of_nat n)) by (apply E; eauto). congruence.
  - intros H. destruct (block_precedence b (ITerm s) l) as [n|] eqn:X; [|reflexivity]. pose proof (proj1 (E n) eq_refl) as Y. destruct Y as (P & k & a & L & _). destruct (H _ _ P L).
Qed.
Lemma block_operator_spec b r o k a : 0 <= o -> last_level b o k a -> block_operator b r o -> operator (fun i => block_precedence b i []) r (ITerm o).
Proof.
  intros P L (before & after & E & N). exists before, after. split; [exact E|]. split; [eauto|]. split; [intros X; apply (proj1 (level_none b o []) X k a P L)|]. intros j J (s & ->). apply level_none. intros n a' P'. exact (N s J n a' P').
Qed.
Lemma operator_unique precedence r i j : operator precedence r i -> operator precedence r j -> i = j.
Proof.
  intros (b & a & E & T & P & N) (b' & a' & E' & T' & P' & N'). rewrite E in E'. destruct (item_eqb i j) eqn:EQ; [apply item_eqb_spec, EQ|]. exfalso. apply P, N'; [|exact T].
  assert (NE : i <> j) by (intros ->; assert (item_eqb j j = true) by (apply item_eqb_spec; reflexivity); congruence). assert (I : In i (b' ++ j :: a')) by (rewrite <- E'; apply in_or_app; right; left; reflexivity). apply in_app_or in I. apply in_or_app. destruct I as [I|[I|I]]; [auto|congruence|auto].
Qed.
(** With a block, for a conflict between a shift and a reduce where both have a precedence. *)
Theorem C34_conflict : forall b state_items q acts s sh re o n na k ka, ssorted action_ltb acts ->
  only_one acts Shift (ITerm s) sh -> only_one acts Reduce (ITerm s) re -> 0 <= s -> 0 <= o ->
  last_level b s n na -> block_operator b (a_rule re) o -> last_level b o k ka ->
  let acts' := precedence_rewrite (block_precedence b) (block_associativity b) state_items q acts in
  (In sh acts' <-> (k < n)%nat \/ (n = k /\ ka <> Left_assoc)) /\ (In re acts' <-> (n < k)%nat \/ (n = k /\ ka <> Right_assoc)) /\
  forall a, a_item a = ITerm s -> a <> sh -> a <> re -> In a acts' <-> In a acts.
Proof.
  intros b state_items q acts s sh re o n na k ka SA OS OR PS PO LS OP LO acts'. destruct (C34_actions (block_precedence b) (block_associativity b) state_items q acts SA) as [_ E]. fold acts' in E.
  assert (BP : operator (fun i => block_precedence b i []) (a_rule re) (ITerm o)) by (eapply block_operator_spec; eassumption).
  assert (SP : forall l, block_precedence b (ITerm s) l = Some (Z.of_nat n)) by (intros l; apply (C34_levels b s l); eauto). assert (RP : block_precedence b (ITerm o) [] = Some (Z.of_nat k)) by (apply (C34_levels b o []); eauto). pose proof (proj2 (C34_levels b o []) k ka PO LO) as AS.
  assert (X : forall a, loses (fun i => block_precedence b i []) (fun i => block_associativity b i []) (fun i => block_precedence b i (shift_items state_items q i)) acts a -> a_item a = ITerm s ->
    (a = sh /\ ((n < k)%nat \/ (n = k /\ ka = Left_assoc))) \/ (a = re /\ ((k < n)%nat \/ (n = k /\ ka = Right_assoc)))).
  { intros a [s' i sh' re' o' sp rp -> OS' OR' OP' SP' RP' C|s' i sh' re' o' sp rp -> OS' OR' OP' SP' RP' C] EI.
    - assert (s' = s) by (destruct OS' as (_ & _ & EI' & _); congruence). subst s'. assert (sh' = sh) by (destruct OS as (_ & _ & _ & U); apply U; apply OS'). assert (re' = re) by (destruct OR as (_ & _ & _ & U); apply U; apply OR'). subst sh' re'. assert (o' = ITerm o) by exact (operator_unique _ _ _ _ OP' BP). subst o'. cbv beta in *. rewrite SP in SP'. rewrite RP in RP'. injection SP' as <-. injection RP' as <-. left. split; [reflexivity|]. destruct C as [C|[C1 C2]]; [left; lia|right]. split; [lia|]. rewrite AS in C2. destruct ka; congruence.
    - assert (s' = s) by (destruct OR' as (_ & _ & EI' & _); congruence). subst s'. assert (sh' = sh) by (destruct OS as (_ & _ & _ & U); apply U; apply OS'). assert (re' = re) by (destruct OR as (_ & _ & _ & U); apply U; apply OR'). subst sh' re'. assert (o' = ITerm o) by exact (operator_unique _ _ _ _ OP' BP). subst o'. cbv beta in *. rewrite SP in SP'. rewrite RP in RP'. injection SP' as <-. injection RP' as <-. right. split; [reflexivity|]. destruct C as [C|[C1 C2]]; [left; lia|right]. split; [lia|]. rewrite AS in C2. destruct ka; congruence. }
  assert (NE : sh <> re) by (intros ->; destruct OS as (_ & T & _), OR as (_ & T' & _); congruence). split; [|split].
  - rewrite E. split.
    + intros [_ NL]. destruct (Nat.lt_trichotomy n k) as [H|[H|H]]; [exfalso|right|auto].
      * apply NL. eapply shift_loses; try eassumption; [reflexivity|apply SP|left; lia].
      * split; [exact H|]. intros KA. apply NL. eapply shift_loses; try eassumption; [reflexivity|apply SP|right]. split; [lia|]. rewrite AS, KA. reflexivity.
    + intros C. split; [apply OS|]. intros LL. apply X in LL; [|apply OS]. destruct LL as [[_ LL]|[LL _]]; [|contradiction]. destruct C as [C|[C1 C2]], LL as [LL|[L1 L2]]; (lia || contradiction).
  - rewrite E. split.
    + intros [_ NL]. destruct (Nat.lt_trichotomy n k) as [H|[H|H]]; [auto|right|exfalso].
      * split; [exact H|]. intros KA. apply NL. eapply reduce_loses; try eassumption; [reflexivity|apply SP|right]. split; [lia|]. rewrite AS, KA. reflexivity.
      * apply NL. eapply reduce_loses; try eassumption; [reflexivity|apply SP|left; lia].
    + intros C. split; [apply OR|]. intros LL. apply X in LL; [|apply OR]. destruct LL as [[LL _]|[_ LL]]; [congruence|]. destruct C as [C|[C1 C2]], LL as [LL|[L1 L2]]; (lia || contradiction).
  - intros a EI N1 N2. rewrite E. split; [tauto|]. intros I. split; [exact I|]. intros LL. apply X in LL; [|exact EI]. destruct LL as [[LL _]|[LL _]]; contradiction.
Qed.
Print Assumptions C34_conflict.
(** Without such a conflict on its symbol, an action stays. *)
Theorem C34_others : forall b state_items q acts a, ssorted action_ltb acts ->
  (forall s sh re o n na k ka, a_item a = ITerm s -> only_one acts Shift (ITerm s) sh -> only_one acts Reduce (ITerm s) re -> 0 <= s -> 0 <= o -> last_level b s n na -> block_operator b (a_rule re) o -> last_level b o k ka -> False) ->
  In a (precedence_rewrite (block_precedence b) (block_associativity b) state_items q acts) <-> In a acts.
Proof.
  intros b state_items q acts a SA NC. destruct (C34_actions (block_precedence b) (block_associativity b) state_items q acts SA) as [_ E]. rewrite E. split; [tauto|]. intros I. split; [exact I|].
  assert (OPR : forall r o rp, operator (fun i => block_precedence b i []) r o -> block_precedence b o [] = Some rp -> exists s k ka, o = ITerm s /\ 0 <= s /\ block_operator b r s /\ last_level b s k ka).
  { intros r o rp (before & after & E1 & (s & ->) & P & N) RP. apply (C34_levels b s []) in RP. destruct RP as (PS & k & ka & L & _). exists s, k, ka. split; [reflexivity|]. split; [exact PS|]. split; [|exact L]. exists before, after. split; [exact E1|]. intros s' J n a' P'. apply (proj1 (level_none b s' [])); [|exact P']. apply N; eauto. }
  intros LL. assert (X : exists s sh re o sp rp, a_item a = ITerm s /\ only_one acts Shift (ITerm s) sh /\ only_one acts Reduce (ITerm s) re /\ operator (fun i => block_precedence b i []) (a_rule re) o /\ block_precedence b (ITerm s) (shift_items state_items q (ITerm s)) = Some sp /\ block_precedence b o [] = Some rp).
  { clear -LL. destruct LL as [s i sh re o sp rp -> OS OR OP SP RP _|s i sh re o sp rp -> OS OR OP SP RP _]; exists s, sh, re, o, sp, rp; (split; [apply OS || apply OR|auto 6]). }
  destruct X as (s & sh & re & o & sp & rp & EI & OS & OR & OP & SP & RP). destruct (OPR _ _ _ OP RP) as (so & k & ka & -> & PO & BO & LO). apply (C34_levels b s _) in SP. destruct SP as (PS & n & na & LS & _). eapply NC; eassumption.
Qed.
Print Assumptions C34_others.
(** + below *, both left-associative *)
Example C34_example :
  let block := [(Left_assoc, [10]); (Left_assoc, [20])] in
  let sum := mkRule (INonterm 0) [INonterm 0; ITerm 10; INonterm 0] in
  precedence_rewrite (block_precedence block) (block_associativity block) (fun _ => []) 7
    [mkAction Shift (ITerm 10) 3 no_rule; mkAction Reduce (ITerm 10) 1 sum; mkAction Shift (ITerm 20) 4 no_rule; mkAction Reduce (ITerm 20) 1 sum] =
  [mkAction Reduce (ITerm 10) 1 sum; mkAction Shift (ITerm 20) 4 no_rule].
Proof. vm_compute. reflexivity. Qed.

(** *** C35: conflict attributes *)
Theorem C35_actions : forall closure attribute q acts, ssorted action_ltb acts -> ssorted action_ltb (attribute_rewrite closure attribute q acts) /\
  forall a, In a (attribute_rewrite closure attribute q acts) <-> with_attributes attribute (closure q) acts a.
Proof. exact attributes_exact. Qed.
Print Assumptions C35_actions.
(** The resolution of a conflict is one of the attributes, and there is one only. *)
Theorem C35_resolution : forall attribute i l, (exists r, resolved attribute i l r) /\ forall r r', resolved attribute i l r -> resolved attribute i l r' -> r = r'.
Proof. intros attribute i l. split; [eexists; apply resolved_spec; reflexivity|]. intros r r' H H'. apply resolved_spec in H. apply resolved_spec in H'. congruence. Qed.
Print Assumptions C35_resolution.
(** For a symbol with shift and reduce actions where the resolution is [r], if there is one reduce action or
    [r] is to reduce. *)
Theorem C35_conflict_partial : forall closure attribute q acts s r, ssorted action_ltb acts -> conflict_on attribute (closure q) acts (ITerm s) r ->
  let acts' := attribute_rewrite closure attribute q acts in forall a, a_item a = ITerm s ->
  match r with
  | NotSpecified => In a acts' <-> In a acts
  | ResolveShift => In a acts' <-> In a acts /\ a_type a <> Reduce
  | ResolveReduce => In a acts' <-> In a acts /\ a_type a <> Shift /\ a_type a <> ShiftStrong
  | ResolveWeak => In a acts' <-> (In a acts /\ a_type a <> Reduce) \/ exists b, In b acts /\ a_type b = Reduce /\ a_item b = ITerm s /\ weakened b a
  end.
Proof.
  intros closure attribute q acts s r SA C acts' a EA. destruct (C35_actions closure attribute q acts SA) as [_ E]. specialize (E a). fold acts' in E.
  assert (U : forall r', conflict_on attribute (closure q) acts (ITerm s) r' -> r' = r) by (intros r' C'; eapply (proj2 (C35_resolution _ _ _)); [apply C'|apply C]).
  assert (W : forall b, a_type b = Reduce -> conflict_on attribute (closure q) acts (a_item b) ResolveWeak -> weakened b a -> r = ResolveWeak) by (intros b _ C' X; rewrite X in EA; cbn in EA; rewrite EA in C'; symmetry; apply U, C').
  destruct r; rewrite E; (split; [intros [H1 H2 H3 H4|b H1 H2 H3 H4]; [|try discriminate (W b H2 H3 H4)]|]).
  - exact H1.
  - intros I. apply attribute_kept; [exact I| | |]; intros [_ C']; rewrite EA in C'; discriminate (U _ C').
  - split; [exact H1|]. intros T. apply H2. rewrite EA. auto.
  - intros [I N]. apply attribute_kept; [exact I|tauto| |]; intros [_ C']; rewrite EA in C'; discriminate (U _ C').
  - split; [exact H1|]. split; intros T; apply H3; rewrite EA; (split; [|exact C]); [left|right]; exact T.
  - intros (I & N1 & N2). apply attribute_kept; [exact I| |intros [[T|T] _]; contradiction|]; intros [_ C']; rewrite EA in C'; discriminate (U _ C').
  - left. split; [exact H1|]. intros T. apply H4. rewrite EA. auto.
  - right. exists b. rewrite H4 in EA. auto.
  - intros [[I N]|(b & B & T & EB & X)]; [|eapply attribute_weaker; try eassumption; rewrite EB; exact C]. apply attribute_kept; [exact I| | |tauto]; intros [_ C']; rewrite EA in C'; discriminate (U _ C').
Qed.
Print Assumptions C35_conflict_partial.
(** Actions for a symbol without such a conflict stay, and there are no new ones. *)
Theorem C35_others : forall closure attribute q acts a, ssorted action_ltb acts -> (forall r, r <> NotSpecified -> ~ conflict_on attribute (closure q) acts (a_item a) r) ->
  In a (attribute_rewrite closure attribute q acts) <-> In a acts.
Proof.
  intros closure attribute q acts a SA NC. destruct (C35_actions closure attribute q acts SA) as [_ E]. rewrite E. split.
  - intros [H1 _ _ _|b H1 H2 H3 H4]; [exact H1|]. exfalso. apply (NC ResolveWeak); [discriminate|]. rewrite H4. exact H3.
  - intros I. apply attribute_kept; [exact I| | |]; intros [_ C]; (eapply NC; [|exact C]); discriminate.
Qed.
Print Assumptions C35_others.
(** With two reduce actions, [conflict=shift] removes none of them. *)
Theorem C35_several_refuted : exists closure attribute q acts s, ssorted action_ltb acts /\ resolved attribute (ITerm s) (closure q) ResolveShift /\
  (exists a, In a acts /\ a_item a = ITerm s /\ a_type a = Shift) /\ exists a, In a (attribute_rewrite closure attribute q acts) /\ a_item a = ITerm s /\ a_type a = Reduce.
Proof.
  set (k := mkLr0 (mkRule (INonterm 0) [ITerm 4; ITerm 1]) 1). exists (fun _ => [k]), (fun _ _ => ResolveShift), 0, [mkAction Shift (ITerm 1) 5 no_rule; mkAction Reduce (ITerm 1) 1 (mkRule (INonterm 1) [ITerm 4]); mkAction Reduce (ITerm 1) 1 (mkRule (INonterm 2) [ITerm 4])], 1.
  split; [repeat constructor|]. split; [|split].
  - change [k] with ([] ++ k :: []). apply (resolved_by (fun _ _ => ResolveShift) (ITerm 1) [] k []); [exists []; reflexivity|discriminate|intros ? []].
  - eexists. split; [left; reflexivity|]. split; reflexivity.
  - eexists. split; [vm_compute; right; left; reflexivity|]. split; reflexivity.
Qed.
Print Assumptions C35_several_refuted.
Example C35_example :
  let k := mkLr0 (mkRule (INonterm 0) [ITerm 4; ITerm 1]) 1 in let re := mkAction Reduce (ITerm 1) 1 (mkRule (INonterm 1) [ITerm 4]) in let sh := mkAction Shift (ITerm 1) 5 no_rule in
  attribute_rewrite (fun _ => [k]) (fun _ _ => ResolveShift) 0 [sh; re] = [sh] /\
  attribute_rewrite (fun _ => [k]) (fun _ _ => ResolveReduce) 0 [sh; re] = [re] /\
  attribute_rewrite (fun _ => [k]) (fun _ _ => ResolveWeak) 0 [sh; re] = [sh; mkAction WeakReduce (ITerm 1) 1 (mkRule (INonterm 1) [ITerm 4])].
Proof. vm_compute. auto. Qed.

(** *** C57: LR(1) resolution of reduce/reduce conflicts *)
(** When several reductions are possible on a terminal and the rewriter finds no state that can be returned
    to by two of the items, all of them but the first become weak.  Nothing else changes.  What is missing is
    that there is no such state: C57_hides_refuted in LookSourceProps shows that the states it finds are
    not all of them. *)
Theorem C57_actions_partial : forall state_looks sources q acts, (forall q k la, In (k, la) (state_looks q) -> ssorted item_ltb la) -> ssorted action_ltb acts ->
  ssorted action_ltb (lr1_rewrite state_looks sources q acts) /\ forall a, In a (lr1_rewrite state_looks sources q acts) <-> with_lr1 state_looks sources q acts a.
Proof. intros state_looks sources q acts LO SA. exact (lr1_exact state_looks sources LO q acts SA). Qed.
Print Assumptions C57_actions_partial.
(** So no action is lost: each is still there, or is there as a weak reduction. *)
Theorem C57_none_lost : forall state_looks sources q acts, (forall q k la, In (k, la) (state_looks q) -> ssorted item_ltb la) -> ssorted action_ltb acts ->
  forall a, In a acts -> exists b, In b (lr1_rewrite state_looks sources q acts) /\ (b = a \/ a_type a = Reduce /\ weakened a b).
Proof.
  intros state_looks sources q acts LO SA a I. destruct (C57_actions_partial state_looks sources q acts LO SA) as [_ E].
  assert (DL : later_reduce acts a \/ ~ later_reduce acts a).
  { assert (X : later_reduce acts a <-> is_reduce a && on_terminal a && existsb (fun b => is_reduce b && item_eqb (a_item b) (a_item a) && action_ltb b a) acts = true).
    { rewrite !andb_true_iff, existsb_exists, reduce_spec. unfold on_terminal. rewrite terminal_spec. unfold later_reduce. split.
      - intros (_ & T & TI & b & B & TB & EB & L). split; [auto|]. exists b. split; [exact B|]. rewrite !andb_true_iff, reduce_spec, item_eqb_spec. auto.
      - intros ((T & TI) & b & B & X). rewrite !andb_true_iff, reduce_spec, item_eqb_spec in X. destruct X as ((TB & EB) & L). split; [exact I|]. split; [exact T|]. split; [exact TI|]. exists b. auto. }
    rewrite X. destruct (is_reduce a && on_terminal a && _); [left; reflexivity|right; discriminate]. }
  assert (DT : told_apart state_looks sources q (a_item a) \/ ~ told_apart state_looks sources q (a_item a)).
  { rewrite <- (told_apart_spec state_looks sources LO). destruct (can_resolve [] _); [left; reflexivity|right; discriminate]. }
  destruct DL as [LR|NL]; [destruct DT as [T|NT]|].
  - exists (mkAction WeakReduce (a_item a) (a_next a) (a_rule a)). split; [apply E; eapply lr1_weaker; [exact LR|exact T|reflexivity]|]. right. split; [apply LR|reflexivity].
  - exists a. split; [apply E, lr1_kept; tauto|auto].
  - exists a. split; [apply E, lr1_kept; tauto|auto].
Qed.
Print Assumptions C57_none_lost.
(** A state with the items A -> x . and B -> x . that is reached in two ways *)
Example C57_example :
  let ra := mkRule (INonterm 1) [ITerm 4] in let rb := mkRule (INonterm 2) [ITerm 4] in
  let looks q := if q =? 5 then [(mkLr0 ra 1, [ITerm 6]); (mkLr0 rb 1, [ITerm 6])] else if q =? 1 then [(mkLr0 (mkRule (INonterm 0) [INonterm 1; ITerm 6]) 0, [IEoi])] else if q =? 2 then [(mkLr0 (mkRule (INonterm 0) [INonterm 2; ITerm 6]) 0, [IEoi])] else [] in
  let one := mkAction Reduce (ITerm 6) 5 ra in let two := mkAction Reduce (ITerm 6) 5 rb in
  lr1_rewrite looks (fun q n x => if (n =? 0)%nat then [(1, 0%nat)] else [(2, 0%nat)]) 5 [one; two] = [one; mkAction WeakReduce (ITerm 6) 5 rb] /\
  lr1_rewrite (fun q => if q =? 5 then [(mkLr0 ra 1, [ITerm 6]); (mkLr0 (mkRule (INonterm 1) [ITerm 5]) 1, [ITerm 6])] else looks q) (fun q n x => [(1, 0%nat)]) 5 [one; mkAction Reduce (ITerm 6) 5 (mkRule (INonterm 1) [ITerm 5])] = [one; mkAction Reduce (ITerm 6) 5 (mkRule (INonterm 1) [ITerm 5])].
Proof. vm_compute. auto. Qed.
