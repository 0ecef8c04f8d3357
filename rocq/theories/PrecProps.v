(** C81: parse trees respect the precedence and associativity of operators. *)
From Verif Require Import Base OrdMap GrammarModel GrammarProofs FirstModel FirstSpec FirstProofs FirstProps FollowModel FollowSpec FollowProofs FollowProps LrItemModel LrItemProofs ClosureModel ClosureSpec ClosureProofs ClosureProps MachineModel BuilderModel BuilderSpec BuilderProps ActionModel ActionSpec ActionProofs ActionProps TableModel TableProofs TableProps RunModel RunSpec RunProofs RunTableProofs RunTool RunProps RewriteModel RewriteSpec RewriteProofs RewriteProps RewriteRunProps CompleteProofs CompleteProps PrecSpec PrecProofs.
Local Open Scope Z_scope.

(** A parser with the rewriter for the precedence block [b] before any of the project's other rewriters (as
    the language's rewriters come first: Compiler/lr_parser_stage.cpp 321-335).  There are no guards, and the
    symbols that may be ignored are not used in the grammar or declared weak. *)
Record with_precedence rid rule_of ident sort sort_weak first_of rules u busy languages w (D : Z -> Z -> Prop) (ignorable : Z -> Prop) b state_items ws actss m guards : Prop := {
  wp_rewritten : rewritten rid rule_of ident sort sort_weak first_of rules u busy languages w D ignorable (precedence_rewrite (block_precedence b) (block_associativity b) state_items :: ws) actss m guards;
  wp_first : right_first rules first_of u;
  wp_guards : forall p g, ~ u (IGuard p g);
  wp_ignored : forall s, ignorable s -> ~ u (ITerm s) /\ forall s', ~ D s' s }.

Lemma reads_head L matched renamed weak ignorable (l : L) after w : reads L matched renamed weak ignorable (Some l :: after) w -> (exists w', w = l :: w') \/ (exists l0 s, l = renamed s l0 /\ weak (matched l0) s) \/ exists l0 w', w = l0 :: w' /\ ignorable (matched l0).
Proof. intros H. inversion H; subst; eauto 7. Qed.
Definition reduction (a : action) : Prop := a_type a = Reduce \/ a_type a = WeakReduce.
(** Where the actions of a rewritten set are from *)
Section Origin.
  Context (D : Z -> Z -> Prop) (ignorable : Z -> Prop) (weaks : list (item * iset)).
  Definition originates (acts acts' : action_set) : Prop := forall a, In a acts' ->
    (a_type a = Shift -> In a acts) /\
    (reduction a -> (forall s s', a_item a = ITerm s -> ~ D s' s) -> exists b, In b acts /\ reduction b /\ a_item b = a_item a /\ a_rule b = a_rule a) /\
    (a_type a = Guard -> exists b, In b acts /\ a_type b = Guard).
  Lemma kept_origin acts acts' : (forall a, In a acts' -> In a acts) -> originates acts acts'.
  Proof. intros H a I. apply H in I. split; [auto|]. split; [intros R _; exists a; auto|intros T; exists a; auto]. Qed.
  Lemma known_origin w q acts : known_rewriter D ignorable weaks w -> ssorted action_ltb acts -> ssorted action_ltb (w q acts) /\ originates acts (w q acts).
  Proof.
    assert (WK : forall b a, weakened b a -> In b acts -> reduction b -> (a_type a = Shift -> In a acts) /\ (reduction a -> (forall s s', a_item a = ITerm s -> ~ D s' s) -> exists b, In b acts /\ reduction b /\ a_item b = a_item a /\ a_rule b = a_rule a) /\ (a_type a = Guard -> exists b, In b acts /\ a_type b = Guard)).
    { intros b a -> I R. cbn. split; [discriminate|]. split; [intros _ _; exists b; auto|discriminate]. }
    assert (KP : forall a, In a acts -> (a_type a = Shift -> In a acts) /\ (reduction a -> (forall s s', a_item a = ITerm s -> ~ D s' s) -> exists b, In b acts /\ reduction b /\ a_item b = a_item a /\ a_rule b = a_rule a) /\ (a_type a = Guard -> exists b, In b acts /\ a_type b = Guard)).
    { intros a I. exact (kept_origin acts acts (fun _ I => I) a I). }
    intros K SA. destruct K as [symbols IG|w0 DC _|precedence assoc state_items|closure attribute|state_looks sources LO].
    - destruct (C32_actions (map ITerm symbols) q acts) as [S E]. split; [exact S|]. intros a I. apply E in I. destruct I as [H1 H2|b H1 H2 H3 H4|i H1 H2 ->]; [apply KP, H1|eapply WK; [exact H4|exact H1|left; exact H2]|]. cbn. split; [discriminate|]. split; [intros [X|X]; discriminate X|discriminate].
    - destruct (C33_actions w0 D q acts DC SA) as (S & NO & YES). split; [exact S|]. destruct (weak_cases w0 D q acts DC) as [N|Y]; [rewrite (NO N); exact KP|].
      intros a I. apply (YES Y) in I. destruct I as [H1 _|H1 _ _ _ _|b x H1 H2 H3 HR H4|b s x H1 H2 H3 H4 _ H5]; [apply KP, H1|apply KP, H1|eapply WK; [exact H4|exact H1|exact HR]|]. rewrite H5. unfold reduction. cbn. split; [destruct (a_type b); discriminate|]. split; [intros _ ND; destruct (ND x s eq_refl H4)|].
      intros T. exists b. split; [exact H1|]. destruct (a_type b); try discriminate T. reflexivity.
    - destruct (C34_actions precedence assoc state_items q acts SA) as [S E]. split; [exact S|]. apply kept_origin. intros a I. apply E, I.
    - destruct (C35_actions closure attribute q acts SA) as [S E]. split; [exact S|]. intros a I. apply E in I. destruct I as [H1 _ _ _|b H1 H2 H3 H4]; [apply KP, H1|eapply WK; [exact H4|exact H1|left; exact H2]].
    - destruct (C57_actions_partial state_looks sources q acts LO SA) as [S E]. split; [exact S|]. intros a I. apply E in I. destruct I as [H1 _|b H1 H2 H3]; [apply KP, H1|]. eapply WK; [exact H3|apply H1|left; apply H1].
  Qed.
  Lemma all_origin ws q : Forall (known_rewriter D ignorable weaks) ws -> forall acts, ssorted action_ltb acts -> originates acts (fold_left (fun s (w : rewriter) => w q s) ws acts).
  Proof.
    induction 1 as [|w ws K F IH]; intros acts SA; [apply kept_origin; auto|]. cbn [fold_left]. destruct (known_origin w q acts K SA) as [S1 O1]. specialize (IH _ S1). intros a I. destruct (IH a I) as (A1 & A2 & A3). split; [|split].
    - intros T. exact (proj1 (O1 _ (A1 T)) T).
    - intros R ND. destruct (A2 R ND) as (b & B1 & B2 & B3 & B4). destruct (proj1 (proj2 (O1 b B1)) B2) as (c & C1 & C2 & C3 & C4); [intros s s' E; rewrite B3 in E; exact (ND s s' E)|]. exists c. split; [exact C1|]. split; [exact C2|]. split; congruence.
    - intros T. destruct (A3 T) as (b & B1 & B2). exact (proj2 (proj2 (O1 b B1)) B2).
  Qed.
End Origin.

Section Precedence.
  Context rid rule_of ident sort sort_weak first_of rules u busy languages w (D : Z -> Z -> Prop) (ignorable : Z -> Prop) b state_items ws actss m guards
    (WP : with_precedence rid rule_of ident sort sort_weak first_of rules u busy languages w D ignorable b state_items ws actss m guards).
  Let RW := wp_rewritten _ _ _ _ _ _ _ _ _ _ _ _ _ _ _ _ _ _ _ WP.
  Let BU := rw_buildable _ _ _ _ _ _ _ _ _ _ _ _ _ _ _ _ _ RW.
  Let B := rw_built _ _ _ _ _ _ _ _ _ _ _ _ _ _ _ _ _ RW.
  Let LM := built_machine _ _ _ _ _ _ _ _ BU B.
  Notation acts_of := (lalr_action rules first_of languages (kernel m) (step m)).
  Notation lalr := (lalr_look rules first_of languages Z (kernel m) (step m)).
  Notation complete := (complete_on rules first_of languages (kernel m) (step m)).
  Notation available := (available actss).
  Let prec : rewriter := precedence_rewrite (block_precedence b) (block_associativity b) state_items.

  Lemma starts_inside y x : FirstSpec.starts rules y x -> u y -> u x.
  Proof. induction 1 as [s _|i pre y post s H NN S IH]; intros U; [exact U|]. apply IH. eapply (rf_closed _ _ _ (wp_first _ _ _ _ _ _ _ _ _ _ _ _ _ _ _ _ _ _ _ WP)); [exact U|exact H|apply in_elt]. Qed.
  Lemma look_inside q k x : lalr q k x -> x = IEoi \/ x = IEog \/ u x.
  Proof.
    induction 1 as [q l I K|q p l K|q k y rest r x C A E BG|q k y rest r x LK IH A E S|q k y rest q' x LK IH A S]; auto. right. right. destruct BG as (p & y' & rest' & -> & _ & F & NE).
    assert (U : u y') by (apply (built_closure _ _ _ _ _ _ _ _ BU B _ _ C); rewrite A; right; apply in_elt). apply (rf_first _ _ _ (wp_first _ _ _ _ _ _ _ _ _ _ _ _ _ _ _ _ _ _ _ WP) _ U) in F. destruct F as [[X _]|F]; [contradiction|]. eapply starts_inside; eassumption.
  Qed.
  Lemma looked_closure q k x : lalr q k x -> closure_item rules (kernel m q) k.
  Proof.
    induction 1 as [q l I K|q p l K|q k y rest r x C A E BG|q k y rest r x LK IH A E S|q k y rest q' x LK IH A S]; try (apply in_kernel; exact K); try (eapply in_step; eassumption). apply in_kernel, (lm_goto _ _ _ LM _ _ _ S). exists k, rest. auto.
  Qed.
  (** The actions of a state are from those of the LALR(1) parser that are left by the precedence block. *)
  Lemma available_origin q a : available q a -> exists plain, ssorted action_ltb plain /\ (forall c, In c plain <-> acts_of q c) /\
    (a_type a = Shift -> In a (prec q plain)) /\
    (reduction a -> (forall s s', a_item a = ITerm s -> ~ D s' s) -> exists c, In c (prec q plain) /\ reduction c /\ a_item c = a_item a /\ a_rule c = a_rule a) /\
    (a_type a = Guard -> exists c, In c plain /\ a_type c = Guard).
  Proof.
    intros (Q & acts & N & I). destruct (rw_actions _ _ _ _ _ _ _ _ _ _ _ _ _ _ _ _ _ RW) as [_ AR]. destruct (AR _ _ N) as (fuel & c & c' & AC & AF). unfold actions_for_state in AF. destruct (plain_actions _ _ _ _ _ _ _ _ _) as [[plain c1]|] eqn:PA; [|discriminate AF]. injection AF as <- <-. rewrite Z2Nat.id in * by exact Q.
    pose proof (any_calls_ok _ _ _ _ _ _ (bu_ids _ _ _ _ _ BU) (bu_first _ _ _ _ _ BU) (bu_ordinary _ _ _ _ _ BU) (bu_guards _ _ _ _ _ BU) AC) as A. destruct (plain_exact _ _ _ _ _ _ _ _ BU B _ _ _ _ _ A PA) as (_ & S & E).
    exists plain. split; [exact S|]. split; [exact E|]. cbn [fold_left] in I. pose proof (rw_known _ _ _ _ _ _ _ _ _ _ _ _ _ _ _ _ _ RW) as KN. inversion KN as [|w1 ws1 K1 KS]; subst. destruct (known_origin D ignorable _ _ q plain K1 S) as [S1 O1]. destruct (all_origin D ignorable _ ws q KS _ S1 a I) as (A1 & A2 & A3).
    split; [exact A1|]. split; [exact A2|]. intros T. destruct (A3 T) as (d & D1 & D2). exact (proj2 (proj2 (O1 d D1)) D2).
  Qed.
  Lemma no_guard_actions acts a : In acts actss -> In a acts -> a_type a <> Guard.
  Proof.
    intros IA I T. apply In_nth_error in IA. destruct IA as [n N]. destruct (available_origin (Z.of_nat n) a) as (plain & _ & E & _ & _ & G); [split; [lia|]; rewrite Nat2Z.id; eauto|]. destruct (G T) as (c & IC & TC). apply E in IC. destruct IC as [x t S X|x t S N1 N2|k x C _ NT|k x C _ TR|p l n' s H K CS]; try discriminate TC.
    apply (wp_guards _ _ _ _ _ _ _ _ _ _ _ _ _ _ _ _ _ _ _ WP p l). destruct H as [[t H]|[k (_ & _ & LK)]]; [exact (built_step _ _ _ _ _ _ _ _ BU B _ _ _ H)|]. apply look_inside in LK. destruct LK as [X|[X|X]]; [discriminate X|discriminate X|exact X].
  Qed.
  (** A reduction that is left *)
  Lemma reduce_left q a s : available q a -> reduction a -> a_item a = ITerm s -> (forall s', ~ D s' s) -> exists plain k, ssorted action_ltb plain /\ (forall c, In c plain <-> acts_of q c) /\ l_rule k = a_rule a /\ complete q k (ITerm s) /\ In (mkAction Reduce (ITerm s) (-1) (a_rule a)) (prec q plain).
  Proof.
    intros AV R IT ND. destruct (available_origin q a AV) as (plain & S & E & _ & RO & _). destruct (RO R) as (c & C1 & C2 & C3 & C4); [intros s0 s' X; rewrite IT in X; injection X as <-; apply ND|]. exists plain. pose proof (proj1 (proj1 (proj2 (C34_actions _ _ state_items q plain S) c) C1)) as IC. apply E in IC.
    destruct IC as [x t ST X|x t ST N1 N2|k x C _ NT|k x C _ TR|p l n' s0 H K CS]; try (destruct C2 as [X2|X2]; discriminate X2). exists k. cbn in C3, C4. rewrite <- C4. rewrite C3, IT in *. auto.
  Qed.

  Context (x : item) (a : list item) (o1 : Z) (k : nat) (ka : associativity) (o : Z) (c : list item) (n : nat).
  Context (OP : operators rules first_of languages (kernel m) (step m) D b x a o1 k ka o c n).
  Let r1 := mkRule x (a ++ [x]).
  Let r2 := mkRule x (x :: ITerm o :: c).
  Let E1 := op_ends _ _ _ _ _ _ _ _ _ _ _ _ _ _ _ OP.
  Let E2 := op_starts _ _ _ _ _ _ _ _ _ _ _ _ _ _ _ OP.

  (** After [x], the operator can be shifted. *)
  Lemma over_shift q q1 : step m q x q1 -> exists t, step m q1 (ITerm o) t.
  Proof.
    intros S. destruct (C54_transitions_partial _ _ _ _ _ _ _ _ BU B) as (T1 & _). assert (X : exists k0 rest, closure_item rules (kernel m q) k0 /\ after_dot k0 = x :: rest).
    { destruct (T1 _ _ _ S) as (_ & IS & _ & G). destruct (C54_states_partial _ _ _ _ _ _ _ _ BU B) as (S1 & _). assert (X : exists k, kernel m q1 k). { apply S1 in IS. revert IS. generalize (kernel m q1) as K. intros K [l _ E|from k0 p l rest _ _ _ E|from y _ _ [k0 Y] E]; [exists (language_start l); apply E; reflexivity|exists (guard_start p l); apply E; reflexivity|exists k0; apply E; exact Y]. }
      destruct X as (k0 & K). apply G in K. destruct K as (k1 & rest & C & A & _). eauto. }
    destruct X as (k0 & rest & C & A). assert (C2 : closure_item rules (kernel m q) (mkLr0 r2 0)) by (eapply in_step; [exact C|exact A|exact E2]).
    assert (K1 : kernel m q1 (mkLr0 r2 1)). { apply (lm_goto _ _ _ LM _ _ _ S). exists (mkLr0 r2 0), (ITerm o :: c). auto. }
    apply (lm_step _ _ _ LM q1 (ITerm o) (mkLr0 r2 2)); [discriminate|eauto|]. exists (mkLr0 r2 1), c. split; [apply in_kernel; exact K1|auto].
  Qed.
  (** There is a conflict in every state where the first rule is complete and [o] may follow. *)
  Lemma conflict q q1 plain k1 : step m q x q1 -> l_rule k1 = r1 -> complete q1 k1 (ITerm o) -> ssorted action_ltb plain -> (forall d, In d plain <-> acts_of q1 d) -> exists t,
    (In (mkAction Shift (ITerm o) t no_rule) (prec q1 plain) <-> (k < n)%nat \/ (n = k /\ ka <> Left_assoc)) /\
    (In (mkAction Reduce (ITerm o) (-1) r1) (prec q1 plain) <-> (n < k)%nat \/ (n = k /\ ka <> Right_assoc)) /\ step m q1 (ITerm o) t.
  Proof.
    intros S RK CO SP E. destruct (over_shift _ _ S) as (t & ST). exists t. pose proof OP as OP0. destruct OP0 as [_ _ [P1 P2] OF L1 [na L2] _ AL].
    assert (NT : ~ top_rule (l_rule k1)) by (rewrite RK; exact (expands_no_top _ _ _ E1)).
    destruct (C34_conflict b state_items q1 plain o (mkAction Shift (ITerm o) t no_rule) (mkAction Reduce (ITerm o) (-1) r1) o1 n na k ka SP) as (A1 & A2 & _); auto.
    - split; [apply E; constructor; [exact ST|left; eauto]|]. split; [reflexivity|]. split; [reflexivity|]. intros d ID TD XD. apply E in ID. destruct ID as [y t' S' X|y t' S' N1 N2|k' y C _ _|k' y C _ TR|p l n' s0 H K CS]; try discriminate TD. cbn in XD. subst y. rewrite (lm_fun _ _ _ LM _ _ _ _ S' ST). reflexivity.
    - split; [apply E; rewrite <- RK; apply action_reduce; [exact CO|left; eauto|exact NT]|]. split; [reflexivity|]. split; [reflexivity|]. intros d ID TD XD. apply E in ID. destruct ID as [y t' S' X|y t' S' N1 N2|k' y C _ _|k' y C _ TR|p l n' s0 H K CS]; try discriminate TD. cbn in XD. subst y. rewrite (AL _ _ _ RK CO C), RK. reflexivity.
  Qed.
  (** Where the first rule is begun, [o] may follow it. *)
  Lemma may_follow L matched renamed q xs y q1 ts w1 rest : step m q x y -> made_all rules (step m) rid ident L matched renamed (fun x s => D s x) ignorable available q xs ts w1 rest q1 -> forall before after, a ++ [x] = before ++ xs ++ after ->
    lalr q (mkLr0 r1 (length before)) (ITerm o) -> lalr q1 (mkLr0 r1 (length before + length xs)) (ITerm o).
  Proof.
    intros _ H. induction H as [q r|q zs ts l w0 r q' I H IH|q z zs t ts w0 w' r q2 q' P ST H IH]; intros before after E LK; [cbn; rewrite Nat.add_0_r; exact LK|apply (IH before after E LK)|].
    cbn [length]. replace (length before + S (length zs))%nat with (length (before ++ [z]) + length zs)%nat by (rewrite app_length; cbn; lia). apply (IH (before ++ [z]) after); [rewrite <- app_assoc; exact E|]. rewrite app_length. cbn. replace (length before + 1)%nat with (S (length before)) by lia.
    change (mkLr0 r1 (S (length before))) with (advance (mkLr0 r1 (length before))). eapply lalr_step; [exact LK| |exact ST]. unfold after_dot. cbn [l_rule l_offset r1 r_items]. rewrite E. rewrite skipn_app, skipn_all, Nat.sub_diag. cbn. reflexivity.
  Qed.
  Lemma begun q y : step m q x y -> lalr q (mkLr0 r1 0) (ITerm o).
  Proof.
    intros S. destruct (C54_transitions_partial _ _ _ _ _ _ _ _ BU B) as (T1 & _). assert (X : exists k0 rest, closure_item rules (kernel m q) k0 /\ after_dot k0 = x :: rest).
    { destruct (T1 _ _ _ S) as (_ & IS & _ & G). destruct (C54_states_partial _ _ _ _ _ _ _ _ BU B) as (S1 & _). assert (X : exists k, kernel m y k). { apply S1 in IS. revert IS. generalize (kernel m y) as K. intros K [l _ E|from k0 p l rest _ _ _ E|from y' _ _ [k0 Y] E]; [exists (language_start l); apply E; reflexivity|exists (guard_start p l); apply E; reflexivity|exists k0; apply E; exact Y]. }
      destruct X as (k0 & K). apply G in K. destruct K as (k1 & rest & C & A & _). eauto. }
    destruct X as (k0 & rest & C & A). assert (C2 : closure_item rules (kernel m q) (mkLr0 r2 0)) by (eapply in_step; [exact C|exact A|exact E2]).
    eapply lalr_begins; [exact C2|reflexivity|exact E1|]. exists [], (ITerm o), c. split; [reflexivity|]. split; [intros i []|]. split; [|discriminate].
    assert (U : u (ITerm o)) by (apply (built_closure _ _ _ _ _ _ _ _ BU B _ _ C2); right; left; reflexivity). apply (rf_first _ _ _ (wp_first _ _ _ _ _ _ _ _ _ _ _ _ _ _ _ _ _ _ _ WP) _ U). right. constructor. exact Logic.I.
  Qed.

  Context (L : Type) (matched : L -> Z) (renamed : Z -> L -> L) (RN : forall s l, matched (renamed s l) = s).
  Notation made := (made rules (step m) rid ident L matched renamed (fun x s => D s x) ignorable available).
  Notation made_all := (made_all rules (step m) rid ident L matched renamed (fun x s => D s x) ignorable available).
  Let RI := bu_ids _ _ _ _ _ BU.
  Let II := rw_ident _ _ _ _ _ _ _ _ _ _ _ _ _ _ _ _ _ RW.
  Lemma made_node q y r ts w0 rest : made q y (Node (ident x) (rid (mkRule x r)) ts) w0 rest -> y = x /\ exists q', made_all q r ts w0 rest q' /\ reduces available q' (mkRule x r) (look L matched (hd_error rest)).
  Proof.
    clear RN. intros M. inversion M as [| |q0 x0 r0 ts0 w1 rest1 q' E A R E0 EI [X1 X2] E4 E5]; subst. apply II in X1. subst y. apply RI in X2. injection X2 as ->. split; [reflexivity|]. eauto.
  Qed.
  Lemma tree_right tree q y w0 rest : made q y tree w0 rest -> (exists q', step m q y q') -> right_first_of k ka n -> forall ts l after, inside tree (Node (ident x) (rid r1) ts) (Some l :: after) -> matched l <> o.
  Proof.
    intros M S0 RF ts l after IN ML. destruct (made_inside _ _ _ _ _ _ _ _ _ _ _ _ _ IN _ _ _ _ M S0) as (q1 & x1 & w1 & w2 & M1 & RD & _). apply made_node in M1. destruct M1 as (-> & q' & MA & (act & AV & R & AI & AR)).
    pose proof (op_plain _ _ _ _ _ _ _ _ _ _ _ _ _ _ _ OP) as PLN.
    assert (HD : hd_error (w2 ++ rest) = Some l).
    { destruct (reads_head _ _ _ _ _ _ _ _ RD) as [(w3 & ->)|[(l0 & s & EL & WK)|(l0 & w3 & -> & IG)]].
      - reflexivity.
      - exfalso. rewrite EL, RN in ML. rewrite ML in WK. exact (proj1 (PLN _) WK).
      - exfalso. cbn in AI. destruct (wp_ignored _ _ _ _ _ _ _ _ _ _ _ _ _ _ _ _ _ _ _ WP _ IG) as [NU NW]. destruct (reduce_left _ _ _ AV R AI NW) as (plain & k1 & _ & _ & _ & (_ & _ & LK) & _). apply look_inside in LK. destruct LK as [X|[X|X]]; [discriminate X|discriminate X|contradiction]. }
    rewrite HD in AI. cbn in AI. rewrite ML in AI. destruct (reduce_left _ _ _ AV R AI (fun s => proj2 (PLN s))) as (plain & k1 & SP & E & RK & CO & IN1). rewrite AR in *.
    apply made_app_inv in MA. destruct MA as (t1 & t2 & w3 & w4 & q2 & _ & _ & _ & MA). apply made_one_inv in MA. destruct MA as (t & w5 & w6 & _ & _ & ST). destruct (conflict q2 q' plain k1 ST RK CO SP E) as (t' & _ & A2 & _). apply A2 in IN1. destruct RF as [RF|[RF1 RF2]], IN1 as [H|[H1 H2]]; try lia. contradiction.
  Qed.
  Lemma tree_left tree q y w0 rest : made q y tree w0 rest -> (exists q', step m q y q') -> left_first_of k ka n -> forall ts t after s us, inside tree (Node (ident x) (rid r1) (ts ++ [t])) after -> leftmost t s -> s <> Node (ident x) (rid r2) us.
  Proof.
    clear RN. intros M S0 LF ts t after s us IN LS ->. destruct (made_inside _ _ _ _ _ _ _ _ _ _ _ _ _ IN _ _ _ _ M S0) as (q1 & x1 & w1 & w2 & M1 & _ & (y1 & S1)). apply made_node in M1. destruct M1 as (-> & q' & MA & (act & AV & R & AI & AR)).
    pose proof (op_plain _ _ _ _ _ _ _ _ _ _ _ _ _ _ _ OP) as PLN.
    pose proof (may_follow _ _ _ _ _ _ _ _ _ _ S1 MA [] [] (eq_sym (app_nil_r _)) (begun _ _ S1)) as LK. cbn [length Nat.add] in LK.
    apply made_app_inv in MA. destruct MA as (t1 & t2 & w3 & w4 & q2 & TS & _ & _ & MA). apply made_one_inv in MA. destruct MA as (t0 & w5 & w6 & -> & MT & ST). apply app_inj_tail in TS. destruct TS as [_ <-].
    assert (CO : complete q' (mkLr0 r1 (length (a ++ [x]))) (ITerm o)). { split; [|split; [unfold after_dot; apply skipn_all|exact LK]]. exact (looked_closure _ _ _ LK). }
    destruct (made_leftmost _ _ _ _ _ _ _ _ _ _ _ _ LS _ _ _ _ MT) as (x2 & w7 & rest7 & M2). apply made_node in M2. destruct M2 as (_ & q3 & MA2 & _). apply made_first in MA2. destruct MA2 as (t3 & ts3 & w8 & w9 & q4 & _ & _ & ST4 & MA3). rewrite (lm_fun _ _ _ LM _ _ _ _ ST4 ST) in MA3. apply made_first in MA3. destruct MA3 as (t5 & ts5 & w10 & w11 & q5 & _ & ML & _).
    assert (SH : exists sh, available q' sh /\ a_type sh = Shift /\ a_item sh = ITerm o).
    { destruct (made_symbol _ _ _ _ _ _ _ _ _ _ _ _ _ _ _ ML) as [X|(l & WK)]; [exact X|]. exfalso. exact (proj1 (PLN _) WK). }
    destruct SH as (sh & A1 & A2 & A3). destruct (available_origin q' sh A1) as (plain & SP & E & SO & _). destruct (conflict q2 q' plain (mkLr0 r1 (length (a ++ [x]))) ST eq_refl CO SP E) as (t' & C1 & _ & ST'). specialize (SO A2).
    assert (sh = mkAction Shift (ITerm o) t' no_rule). { pose proof (proj1 (proj1 (proj2 (C34_actions _ _ state_items q' plain SP) sh) SO)) as IC. apply E in IC. destruct IC as [z t6 S' X|z t6 S' N1 N2|k' z C _ _|k' z C _ TR|p l n' s0 H K CS]; try discriminate A2. cbn in A3. subst z. rewrite (lm_fun _ _ _ LM _ _ _ _ S' ST'). reflexivity. }
    subst sh. apply C1 in SO. destruct LF as [LF|[L1 L2]], SO as [H|[H1 H2]]; try lia. contradiction.
  Qed.
End Precedence.

Section Accepted.
  Context rid rule_of ident sort sort_weak first_of rules u busy languages w (D : Z -> Z -> Prop) (ignorable : Z -> Prop) b state_items ws actss m guards
    (WP : with_precedence rid rule_of ident sort sort_weak first_of rules u busy languages w D ignorable b state_items ws actss m guards).
  Lemma accepted_tree l q L matched renamed input fuel v0 p : (forall k, kernel m q k <-> k = language_start l) ->
    ast_parse (make_tables rid rule_of ident sort sort_weak actss (w_weak_for w)) matched renamed fuel (start_parser L (ast L) q v0 input) = Done (true, p) ->
    exists tree w0 rest, map snd (s_stack (p_run p)) = [tree; v0] /\ made rules (step m) rid ident L matched renamed (fun x s => D s x) ignorable (available actss) q l tree w0 rest /\ exists q', step m q l q'.
  Proof.
    intros KQ H. pose proof (rewritten_compiled _ _ _ _ _ _ _ _ _ _ _ _ _ _ _ _ _ (wp_rewritten _ _ _ _ _ _ _ _ _ _ _ _ _ _ _ _ _ _ _ WP)) as [BU [N1 N2] B II SO FI FA].
    pose proof (built_machine _ _ _ _ _ _ _ _ BU B) as LM. assert (PL : forall q x n, step m q x n -> x <> IEoi /\ x <> IEog) by (intros q0 x n S; apply (built_step _ _ _ _ _ _ _ _ BU B) in S; split; congruence).
    assert (TR : top_rule (mkRule IEmpty [l])) by (left; reflexivity).
    destruct (parse_made rules (kernel m) (step m) LM (fun x s => D s x) ignorable PL rid rule_of ident sort sort_weak actss (w_weak_for w) II SO FI FA (no_guard_actions _ _ _ _ _ _ _ _ _ _ _ _ _ _ _ _ _ _ _ WP) L matched renamed (ast L) ast_shift ast_reduce q (mkRule IEmpty [l]) KQ TR v0 eq_refl fuel (start_parser L (ast L) q v0 input) true p) as [_ AC]; [apply start_made|exact H|].
    destruct (AC eq_refl) as (tree & w0 & rest & MD & VS & ST). rewrite value_ast in VS. exists tree, w0, rest. auto.
  Qed.
End Accepted.

(** C81.  The rule x -> a x with the operator [o1], and x -> x o c.  If [o] goes first, because it is on a
    higher level or [o1] is right-associative, then in the tree of an accepted input nothing made by the first
    rule is followed by [o]: the [o] has gone to the x at its end.  So it is with any of the project's other
    rewriters after that for the precedence block.  Missing: grammars with guards; ignored symbols that are
    used in the grammar; operators with weak versions; states where other rules could be reduced before [o]
    as well. *)
Theorem C81_right_partial : forall rid rule_of ident sort sort_weak first_of rules u busy languages w D ignorable b state_items ws actss m guards l q x a o1 k ka o c n,
  with_precedence rid rule_of ident sort sort_weak first_of rules u busy languages w D ignorable b state_items ws actss m guards -> (forall k, kernel m q k <-> k = language_start l) ->
  operators rules first_of languages (kernel m) (step m) D b x a o1 k ka o c n -> right_first_of k ka n ->
  forall L matched renamed input fuel v0 p, (forall s l, matched (renamed s l) = s) ->
  ast_parse (make_tables rid rule_of ident sort sort_weak actss (w_weak_for w)) matched renamed fuel (start_parser L (ast L) q v0 input) = Done (true, p) ->
  exists tree, map snd (s_stack (p_run p)) = [tree; v0] /\
  forall ts t after, inside tree (Node (ident x) (rid (mkRule x (a ++ [x]))) ts) (Some t :: after) -> matched t <> o.
Proof.
  intros until 1. rename H into WP. intros KQ OP RF. intros. destruct (accepted_tree _ _ _ _ _ _ _ _ _ _ _ _ _ _ _ _ _ _ _ WP _ _ _ _ _ _ _ _ _ KQ H0) as (tree & w0 & rest & VS & MD & ST). exists tree. split; [exact VS|].
  exact (tree_right _ _ _ _ _ _ _ _ _ _ _ _ _ _ _ _ _ _ _ WP _ _ _ _ _ _ _ _ OP L matched renamed H _ _ _ _ _ MD ST RF).
Qed.
Print Assumptions C81_right_partial.
(** If [o1] goes first, because it is on a higher level or left-associative, then no x at the end of what is
    made by the first rule is made by the second, and nothing at its left edge either: the [o] has not gone
    to the x but to the whole. *)
Theorem C81_left_partial : forall rid rule_of ident sort sort_weak first_of rules u busy languages w D ignorable b state_items ws actss m guards l q x a o1 k ka o c n,
  with_precedence rid rule_of ident sort sort_weak first_of rules u busy languages w D ignorable b state_items ws actss m guards -> (forall k, kernel m q k <-> k = language_start l) ->
  operators rules first_of languages (kernel m) (step m) D b x a o1 k ka o c n -> left_first_of k ka n ->
  forall L matched renamed input fuel v0 p,
  ast_parse (make_tables rid rule_of ident sort sort_weak actss (w_weak_for w)) matched renamed fuel (start_parser L (ast L) q v0 input) = Done (true, p) ->
  exists tree, map snd (s_stack (p_run p)) = [tree; v0] /\
  forall ts t after s us, inside tree (Node (ident x) (rid (mkRule x (a ++ [x]))) (ts ++ [t])) after -> leftmost t s -> s <> Node (ident x) (rid (mkRule x (x :: ITerm o :: c))) us.
Proof.
  intros until 1. rename H into WP. intros KQ OP LF. intros. destruct (accepted_tree _ _ _ _ _ _ _ _ _ _ _ _ _ _ _ _ _ _ _ WP _ _ _ _ _ _ _ _ _ KQ H) as (tree & w0 & rest & VS & MD & ST). exists tree. split; [exact VS|].
  exact (tree_left _ _ _ _ _ _ _ _ _ _ _ _ _ _ _ _ _ _ _ WP _ _ _ _ _ _ _ _ OP L matched renamed _ _ _ _ _ MD ST LF).
Qed.
Print Assumptions C81_left_partial.

(** In no state two rules can be reduced on the symbol [o]. *)
Definition alone_check (o : Z) (actss : list action_set) : bool :=
  forallb (fun acts => forallb (fun a => forallb (fun b => match a_type a, a_type b with Reduce, Reduce => negb (item_eqb (a_item a) (ITerm o) && item_eqb (a_item b) (ITerm o)) || rule_eqb (a_rule a) (a_rule b) | _, _ => true end) acts) acts) actss.
Lemma checked_alone rid rule_of ident sort first_of rules u busy languages actss m guards o : plain_parser rid rule_of ident sort first_of rules u busy languages actss m guards -> alone_check o actss = true ->
  forall q k1 k2, complete_on rules first_of languages (kernel m) (step m) q k1 (ITerm o) -> complete_on rules first_of languages (kernel m) (step m) q k2 (ITerm o) -> l_rule k2 = l_rule k1.
Proof.
  intros PP AC q k1 k2 C1 C2. assert (QK : exists k, kernel m q k) by (destruct C1 as (C & _); apply CompleteProofs.closure_kernel in C; exact C).
  destruct QK as [k K]. pose proof (plain_range _ _ _ _ _ _ _ _ _ _ _ _ PP q k K) as R. destruct (nth_error actss (Z.to_nat q)) as [acts|] eqn:N; [|apply nth_error_None in N; lia].
  assert (EX := plain_actions_exact _ _ _ _ _ _ _ _ _ _ _ _ PP _ _ N). rewrite Z2Nat.id in EX by lia.
  assert (X : forall k, complete_on rules first_of languages (kernel m) (step m) q k (ITerm o) -> In (mkAction Reduce (ITerm o) (-1) (l_rule k)) acts).
  { intros k' C'. apply EX, action_reduce; [exact C'|left; eauto|]. intros T. destruct C' as (_ & _ & LK). apply top_look in LK; [|exact T]. destruct LK as [[LK _]|[LK _]]; discriminate LK. }
  apply X in C1. apply X in C2. unfold alone_check in AC. rewrite forallb_forall in AC. specialize (AC _ (nth_error_In _ _ N)). rewrite forallb_forall in AC. specialize (AC _ C2). rewrite forallb_forall in AC. specialize (AC _ C1). cbn [a_type a_item a_rule] in AC.
  assert (I : item_eqb (ITerm o) (ITerm o) = true) by (apply item_eqb_spec; reflexivity). rewrite I in AC. cbn in AC. apply rule_eqb_spec in AC. exact AC.
Qed.
Lemma checked_operators rid rule_of ident sort first_of nts u busy languages actss m guards b v a o1 k ka o c n na : plain_parser rid rule_of ident sort first_of (rules_of nts) u busy languages actss m guards -> alone_check o actss = true ->
  In (a ++ [INonterm v]) (rules_of nts v) -> In (INonterm v :: ITerm o :: c) (rules_of nts v) -> 0 <= o1 /\ 0 <= o -> (exists w, a = [INonterm w; ITerm o1]) \/ a = [ITerm o1] -> last_level b o1 k ka -> last_level b o n na ->
  operators (rules_of nts) first_of languages (kernel m) (step m) (fun _ _ => False) b (INonterm v) a o1 k ka o c n.
Proof.
  intros PP AC H1 H2 H3 H4 H5 H6. constructor.
  - apply expands_rule, H1.
  - apply expands_rule, H2.
  - exact H3.
  - destruct H4 as [[w ->]| ->]; [exists [INonterm w], [INonterm v]|exists [], [INonterm v]]; (split; [reflexivity|]); intros s I; exfalso; cbn in I; repeat (destruct I as [I|I]; [discriminate I|]); destruct I.
  - exact H5.
  - exists na. exact H6.
  - intros s. split; intros [].
  - intros q k1 k2 _. exact (checked_alone _ _ _ _ _ _ _ _ _ _ _ _ _ PP AC q k1 k2).
Qed.

(** 0 -> 0 t5 0 | 0 t6 0 | 0 t8 0 | t7 0 | t4, with t5 below t6 and t7, both left-associative, below t8,
    which is right-associative; t9 is ignored. *)
Definition nts_sums : grammar_of := [(0, [[INonterm 0; ITerm 5; INonterm 0]; [INonterm 0; ITerm 6; INonterm 0]; [INonterm 0; ITerm 8; INonterm 0]; [ITerm 7; INonterm 0]; [ITerm 4]])].
Definition items_sums : list item := [INonterm 0; ITerm 4; ITerm 5; ITerm 6; ITerm 7; ITerm 8].
Definition block_sums : precedence_block := [(Left_assoc, [5]); (Left_assoc, [6; 7]); (Right_assoc, [8])].
Definition rewriters_sums : list rewriter := [weak_rewrite no_weak; ignored_rewrite (ignoring (map ITerm [9]))].
Definition all_sums : list rewriter := precedence_rewrite (block_precedence block_sums) (block_associativity block_sums) (fun _ => []) :: rewriters_sums.
(** A tree with a bracket, -1 to -2, around each node with more than one child *)
Fixpoint brackets (t : ast lex) : list Z := match t with Leaf None => [] | Leaf (Some l) => [fst l] | Node _ _ [t] => brackets t | Node _ _ ts => -1 :: flat_map brackets ts ++ [-2] end.
Definition parsed (o : outcome (bool * parser lex (ast lex))) : option (list (list Z)) := match o with Done (true, p) => Some (map (fun v => brackets (snd v)) (s_stack (p_run p))) | _ => None end.
Lemma levels_sums : last_level block_sums 5 1 Left_assoc /\ last_level block_sums 6 2 Left_assoc /\ last_level block_sums 7 2 Left_assoc /\ last_level block_sums 8 3 Right_assoc /\ forall s n a, last_level block_sums s n a -> s = 5 \/ s = 6 \/ s = 7 \/ s = 8.
Proof.
  repeat split; try lia; try (eexists; split; [reflexivity|cbn; auto]; fail); try (intros n' a' l' K N; destruct n' as [|[|[|[|n']]]]; try lia; cbn in N; try discriminate N; injection N as <- <-; cbn; lia).
  intros s n a (K & (l & N & I) & _). destruct n as [|[|[|[|n]]]]; try lia; cbn in N; try discriminate N; [| | |destruct n; discriminate N]; injection N as <- <-; cbn in I; lia.
Qed.
Example C81_nontrivial : exists m guards actss, tool nts_sums items_sums [INonterm 0] = Some (m, guards, actss) /\
  let t := tool_tables nts_sums items_sums [INonterm 0] (rewrite_all all_sums actss) (w_weak_for no_weak) in
  let operators := operators (rules_of nts_sums) (first_by (rules_of nts_sums) 20) [INonterm 0] (kernel m) (step m) (fun _ _ => False) block_sums (INonterm 0) in
  with_precedence rule_number (rule_in (all_rules nts_sums items_sums [INonterm 0])) item_number (insertion_sort entry_ltb) (insertion_sort weak_ltb) (first_by (rules_of nts_sums) 20) (rules_of nts_sums) (fun i => In i items_sums) one_object [INonterm 0]
    no_weak (fun _ _ => False) (fun s => s = 9) block_sums (fun _ => []) rewriters_sums (rewrite_all all_sums actss) m guards /\
  (forall k, kernel m 0 k <-> k = language_start (INonterm 0)) /\
  operators [INonterm 0; ITerm 5] 5 1%nat Left_assoc 6 [INonterm 0] 2%nat /\ right_first_of 1 Left_assoc 2 /\
  operators [INonterm 0; ITerm 8] 8 3%nat Right_assoc 8 [INonterm 0] 3%nat /\ right_first_of 3 Right_assoc 3 /\
  operators [ITerm 7] 7 2%nat Left_assoc 5 [INonterm 0] 1%nat /\ left_first_of 2 Left_assoc 1 /\
  operators [INonterm 0; ITerm 6] 6 2%nat Left_assoc 6 [INonterm 0] 2%nat /\ left_first_of 2 Left_assoc 2 /\
  parsed (tool_ast t 80 0 [4; 5; 9; 7; 4; 6; 4; 8; 4; 8; 4; 5; 4]) = Some [[-1; -1; 4; 5; -1; -1; 7; 4; -2; 6; -1; 4; 8; -1; 4; 8; 4; -2; -2; -2; -2; 5; 4; -2]; []].
Proof.
  destruct (tool nts_sums items_sums [INonterm 0]) as [[[m g] a]|] eqn:E; [|vm_compute in E; discriminate E]. pose proof (tool_compiled _ _ _ (fun _ _ => False) (fun _ => False) _ _ _ E) as CO. destruct (tool_ok _ _ _ _ _ _ E) as [_ _ _ LN AC _].
  assert (NG : forall p g, ~ In (IGuard p g) items_sums) by (intros p g0 [X|[X|[X|[X|[X|[X|[]]]]]]]; discriminate X).
  pose proof (tool_plain_parser _ _ _ _ _ _ E NG) as PP. assert (RF : right_first (rules_of nts_sums) (first_by (rules_of nts_sums) 20) (fun i => In i items_sums)) by (eapply checked_first; [exact (tool_ok _ _ _ _ _ _ E)|vm_compute; reflexivity]).
  vm_compute in E. injection E as <- <- <-. eexists. eexists. eexists. split; [reflexivity|]. cbv zeta. destruct levels_sums as (L5 & L6 & L7 & L8 & LO).
  split; [|split; [|split; [|split; [|split; [|split; [|split; [|split; [|split; [|split]]]]]]]]].
  - split; [|exact RF|exact NG|intros s ->; split; [intros [X|[X|[X|[X|[X|[X|[]]]]]]]; discriminate X|intros s' []]]. destruct CO as [BU EN B II SO FI _]. constructor; try assumption.
    + split; [exact SO|apply weak_sorts].
    + apply fits_checked. vm_compute. reflexivity.
    + constructor.
    + intros s s' x [].
    + intros s x [].
    + constructor; [apply known_precedence|]. constructor; [apply known_weak; [constructor|reflexivity]|]. constructor; [apply known_ignored; intros s [<- |[]]; reflexivity|constructor].
    + apply rewrite_all_ok. split; [exact LN|exact AC].
  - intros k. split; [intros (s & S & K); vm_compute in S; injection S as <-; destruct K as [<-|[]]; reflexivity|intros ->; eexists; split; [vm_compute; reflexivity|left; reflexivity]].
  - eapply checked_operators; [exact PP|vm_compute; reflexivity|cbn; auto 9|cbn; auto 9|lia|left; eauto|eassumption|eassumption].
  - left. lia.
  - eapply checked_operators; [exact PP|vm_compute; reflexivity|cbn; auto 9|cbn; auto 9|lia|left; eauto|eassumption|eassumption].
  - right. auto.
  - eapply checked_operators; [exact PP|vm_compute; reflexivity|cbn; auto 9|cbn; auto 9|lia|right; reflexivity|eassumption|eassumption].
  - left. lia.
  - eapply checked_operators; [exact PP|vm_compute; reflexivity|cbn; auto 9|cbn; auto 9|lia|left; eauto|eassumption|eassumption].
  - right. auto.
  - vm_compute. reflexivity.
Qed.

(** The claim of C81 fails for a rule in which two symbols have a level: with 0 -> 0 t5 0 | 0 t6 0 t7 0 | t4
    and t6 and t7 above t5, "t4 t6 t4 t7 t4 t5 t4" is read as "t4 t6 t4 t7 (t4 t5 t4)", although t7 is above
    t5 on every level that the block gives it. *)
Definition nts_choice : grammar_of := [(0, [[INonterm 0; ITerm 5; INonterm 0]; [INonterm 0; ITerm 6; INonterm 0; ITerm 7; INonterm 0]; [ITerm 4]])].
Definition items_choice : list item := [INonterm 0; ITerm 4; ITerm 5; ITerm 6; ITerm 7].
Definition block_choice : precedence_block := [(Left_assoc, [5]); (Left_assoc, [6; 7])].
Definition all_choice : list rewriter := [precedence_rewrite (block_precedence block_choice) (block_associativity block_choice) (fun _ => [])].
Theorem C81_two_symbols_refuted : exists m guards actss, tool nts_choice items_choice [INonterm 0] = Some (m, guards, actss) /\
  last_level block_choice 5 1 Left_assoc /\ last_level block_choice 6 2 Left_assoc /\ last_level block_choice 7 2 Left_assoc /\ left_first_of 2 Left_assoc 1 /\
  parsed (tool_ast (tool_tables nts_choice items_choice [INonterm 0] (rewrite_all all_choice actss) []) 40 0 [4; 6; 4; 7; 4; 5; 4]) = Some [[-1; 4; 6; 4; 7; -1; 4; 5; 4; -2; -2]; []].
Proof.
  destruct (tool nts_choice items_choice [INonterm 0]) as [[[m g] a]|] eqn:E; [|vm_compute in E; discriminate E]. vm_compute in E. injection E as <- <- <-. eexists. eexists. eexists. split; [reflexivity|].
  assert (X : forall s k, ((k = 1%nat /\ s = 5) \/ (k = 2%nat /\ (s = 6 \/ s = 7))) -> last_level block_choice s k Left_assoc).
  { intros s k H. split; [lia|]. split.
    - destruct H as [[-> ->]|[-> H]]; eexists; (split; [reflexivity|]); cbn; lia.
    - intros n' a' l' K N. destruct n' as [|[|n']]; cbn in N; [lia| |destruct n'; discriminate N]. injection N as <- <-. cbn. lia. }
  split; [apply X; auto|]. split; [apply X; auto|]. split; [apply X; auto|]. split; [left; lia|]. vm_compute. reflexivity.
Qed.
Print Assumptions C81_two_symbols_refuted.
