(** C37 and C38 for parsers whose actions have been rewritten. *)
From Verif Require Import Base OrdMap GrammarModel GrammarProofs FirstModel FirstProofs FollowModel FollowSpec FollowProofs FollowProps LrItemModel LrItemProofs ClosureModel ClosureSpec ClosureProofs ClosureProps MachineModel BuilderModel BuilderSpec BuilderProps ActionModel ActionSpec ActionProofs ActionProps TableModel TableProofs TableProps RunModel RunSpec RunProofs RunTableProofs RunTool RunProps RewriteModel RewriteSpec RewriteProofs RewriteProps.
Local Open Scope Z_scope.

(** Rewriters of the project, with weak symbols declared as [D] says and symbols that may be ignored *)
Inductive known_rewriter (D : Z -> Z -> Prop) (ignorable : Z -> Prop) (weaks : list (item * iset)) : rewriter -> Prop :=
| known_ignored symbols : (forall s, In s symbols -> ignorable s) -> known_rewriter D ignorable weaks (ignored_rewrite (ignoring (map ITerm symbols)))
| known_weak w : declared w D -> w_weak_for w = weaks -> known_rewriter D ignorable weaks (weak_rewrite w)
| known_precedence precedence assoc state_items : known_rewriter D ignorable weaks (precedence_rewrite precedence assoc state_items)
| known_attribute closure attribute : known_rewriter D ignorable weaks (attribute_rewrite closure attribute)
| known_lr1 state_looks sources : (forall q k la, In (k, la) (state_looks q) -> ssorted item_ltb la) -> known_rewriter D ignorable weaks (lr1_rewrite state_looks sources).
(** The actions of each state, as the builder gives them, rewritten *)
Definition all_rewritten rid first_of rules u busy m guards (rewriters : list rewriter) (actss : list action_set) : Prop :=
  Z.of_nat (length actss) = count_states m /\
  forall q acts, nth_error actss q = Some acts -> exists fuel c c', any_calls rid first_of rules u busy c /\ actions_for_state rid first_of rules busy fuel m guards rewriters (Z.of_nat q) c = Some (acts, c').

Lemma declared_pairs w D : declared w D -> forall s x, weak_for (w_weak_for w) x s <-> D s x.
Proof.
  intros DC s x. destruct (declared_ok _ _ DC) as (M & _ & _ & _ & I & _). rewrite <- I. unfold weak_for, weak_for_strong. split.
  - intros (ws & A & B). rewrite (proj2 (mfind_in _ item_strict _ M (ITerm s) ws) A). exact B.
  - destruct (mfind item_ltb (ITerm s) (w_weak_for w)) as [ws|] eqn:F; [|intros []]. intros B. exists ws. split; [apply (mfind_in _ item_strict _ M), F|exact B].
Qed.
Section Preserved.
  Context (rules : Z -> list (list item)) (kernel : Z -> lr0 -> Prop) (step : Z -> item -> Z -> Prop) (D : Z -> Z -> Prop) (strong : Z -> Z) (ignorable : Z -> Prop) (weaks : list (item * iset)).
  Context (SD : forall s w, D s w -> strong w = s) (ID : forall s w, D s w -> ignorable s -> ignorable w).
  Notation sound := (sound_action rules kernel step (fun w s => D s w) strong ignorable).
  (** A rewriter keeps actions sound, and does not remove gotos. *)
  Definition preserves (w : rewriter) : Prop := forall q acts, ssorted action_ltb acts -> (forall a, In a acts -> sound q a) ->
    ssorted action_ltb (w q acts) /\ (forall a, In a (w q acts) -> sound q a) /\ forall a, In a acts -> a_type a = Goto -> In a (w q acts).
  Lemma sound_weakened q b a : sound q b -> a_type b = Reduce \/ a_type b = WeakReduce -> weakened b a -> sound q a.
  Proof. intros S T ->. destruct S; cbn in T |- *; try (destruct T as [T|T]; discriminate T). apply sound_reduce; auto. Qed.
  Lemma known_preserves w : known_rewriter D ignorable weaks w -> preserves w.
  Proof.
    intros [symbols IG|w0 DC _|precedence assoc state_items|closure attribute|state_looks sources LO] q acts SA SO.
    - destruct (C32_actions (map ITerm symbols) q acts) as [S E]. split; [exact S|]. split.
      + intros a I. apply E in I. destruct I as [H1 H2|b H1 H2 H3 H4|i H1 H2 ->]; [apply SO, H1|eapply sound_weakened; [apply SO, H1|auto|exact H4]|]. apply in_map_iff in H1. destruct H1 as (s & <- & H1). constructor. apply IG, H1.
      + intros a I T. apply E, ignored_kept; [exact I|]. rewrite T. intros [X _]. discriminate X.
    - destruct (C33_actions w0 D q acts DC SA) as (S & NO & YES). split; [exact S|]. destruct (weak_cases w0 D q acts DC) as [N|Y]; [rewrite (NO N); auto|]. split.
      + intros a I. apply (YES Y) in I. destruct I as [H1 _|H1 _ _ _ _|b x H1 H2 H3 HR H4|b s x H1 H2 H3 H4 _ H5]; [apply SO, H1|apply SO, H1|eapply sound_weakened; [apply SO, H1|exact HR|exact H4]|].
        apply SO in H1. rewrite H5. destruct H1 as [y n r ST TY|y n r ST TY _|ty y n k TY CI AD NT|y n k YE CI AD NT|s' n p g r K|s' n r WS ST|s' n r IS]; cbn [a_type a_item a_next a_rule] in *.
        * subst y. apply sound_strong; cbv beta; rewrite (SD _ _ H4); assumption.
        * destruct (TY s H2).
        * destruct TY as [-> | ->]; apply sound_reduce; auto.
        * subst y. destruct YE as [X|X]; discriminate X.
        * injection H2 as ->. eapply sound_guard. exact K.
        * injection H2 as ->. exfalso. apply H3. exists (strong s). exact WS.
        * injection H2 as ->. apply sound_ignore. eapply ID; eassumption.
      + intros a I T. apply (YES Y). apply weak_other; [exact I|]. intros x EX. apply SO in I. destruct I as [y n r ST TY|y n r ST TY _|ty y n k TY CI AD NT|y n k YE CI AD NT|s' n p g r K|s' n r WS ST|s' n r IS]; cbn in *; try discriminate T; [destruct (TY _ EX)|destruct TY as [-> | ->]; discriminate T].
    - destruct (C34_actions precedence assoc state_items q acts SA) as [S E]. split; [exact S|]. split; [intros a I; apply E in I; apply SO, I|]. intros a I T. apply E. split; [exact I|]. intros LL. clear -LL T. destruct LL as [s i sh re o sp rp _ OS OR _ _ _ _|s i sh re o sp rp _ OS OR _ _ _ _]; [destruct OS as (_ & X & _)|destruct OR as (_ & X & _)]; congruence.
    - destruct (C35_actions closure attribute q acts SA) as [S E]. split; [exact S|]. split.
      + intros a I. apply E in I. destruct I as [H1 _ _ _|b H1 H2 H3 H4]; [apply SO, H1|eapply sound_weakened; [apply SO, H1|auto|exact H4]].
      + intros a I T. apply E, attribute_kept; [exact I| | |]; rewrite T; intros [X _]; try discriminate X. destruct X as [X|X]; discriminate X.
    - destruct (C57_actions_partial state_looks sources q acts LO SA) as [S E]. split; [exact S|]. split.
      + intros a I. apply E in I. destruct I as [H1 _|b H1 H2 H3]; [apply SO, H1|]. eapply sound_weakened; [apply SO, H1|left; apply H1|exact H3].
      + intros a I T. apply E, lr1_kept; [exact I|]. intros [(_ & X & _) _]. congruence.
  Qed.
  Lemma all_preserve ws q : Forall (known_rewriter D ignorable weaks) ws -> forall acts, ssorted action_ltb acts -> (forall a, In a acts -> sound q a) ->
    let acts' := fold_left (fun s (w : rewriter) => w q s) ws acts in (forall a, In a acts' -> sound q a) /\ forall a, In a acts -> a_type a = Goto -> In a acts'.
  Proof.
    induction 1 as [|w ws K F IH]; intros acts SA SO; [cbn; auto|]. cbn [fold_left]. destruct (known_preserves w K q acts SA SO) as (S1 & O1 & G1). destruct (IH _ S1 O1) as [O2 G2]. split; [exact O2|]. auto.
  Qed.
End Preserved.

Lemma choose_list {A B} (P : nat -> A -> B -> Prop) (l : list A) : (forall q x, nth_error l q = Some x -> exists y, P q x y) ->
  exists l', length l' = length l /\ (forall q y, nth_error l' q = Some y -> exists x, nth_error l q = Some x /\ P q x y) /\ forall q x, nth_error l q = Some x -> exists y, nth_error l' q = Some y /\ P q x y.
Proof.
  revert P. induction l as [|x l IH]; intros P H; [exists []; split; [reflexivity|]; split; intros [|q] y E; discriminate E|]. destruct (H 0%nat x eq_refl) as (y & Y). destruct (IH (fun q => P (S q)) (fun q x0 E => H (S q) x0 E)) as (l' & LL & A1 & A2). exists (y :: l'). split; [cbn; congruence|]. split.
  - intros [|q] z E; [injection E as <-; exists x; auto|]. exact (A1 q z E).
  - intros [|q] z E; [injection E as <-; exists y; auto|]. exact (A2 q z E).
Qed.
Section Rewritten.
  Context rid (first_of : item -> iset) rules u (busy : nat -> list item -> item -> bool) languages m guards (BU : buildable rid first_of rules u languages) (B : built rid first_of rules u busy languages m guards).
  Context (D : Z -> Z -> Prop) (strong : Z -> Z) (ignorable : Z -> Prop) (weaks : list (item * iset)) (SD : forall s w, D s w -> strong w = s) (ID : forall s w, D s w -> ignorable s -> ignorable w).
  Lemma rewritten_faithful ws actss : Forall (known_rewriter D ignorable weaks) ws -> all_rewritten rid first_of rules u busy m guards ws actss -> faithful rules (kernel m) (step m) (fun w s => D s w) strong ignorable actss.
  Proof.
    intros KN [LN AR].
    destruct (choose_list (fun q acts plain => ssorted action_ltb plain /\ acts = fold_left (fun s (w : rewriter) => w (Z.of_nat q) s) ws plain /\ exists fuel c c', any_calls rid first_of rules u busy c /\ plain_actions rid first_of rules busy fuel m guards (Z.of_nat q) c = Some (plain, c')) actss) as (plains & LP & PP & PQ).
    { intros q acts Q. destruct (AR _ _ Q) as (fuel & c & c' & AC & AF). unfold actions_for_state in AF. destruct (plain_actions _ _ _ _ _ _ _ _ _) as [[plain c1]|] eqn:PA; [|discriminate AF]. injection AF as <- <-. exists plain. split; [|split; [reflexivity|eauto]].
      pose proof (any_calls_ok _ _ _ _ _ _ (bu_ids _ _ _ _ _ BU) (bu_first _ _ _ _ _ BU) (bu_ordinary _ _ _ _ _ BU) (bu_guards _ _ _ _ _ BU) AC) as A. destruct (plain_exact _ _ _ _ _ _ _ _ BU B _ _ _ _ _ A PA) as (_ & S & _). exact S. }
    assert (AP : all_plain rid first_of rules u busy m guards plains). { split; [rewrite <- LN; f_equal; exact LP|]. intros q plain Q. destruct (PP _ _ Q) as (acts & _ & _ & _ & X). exact X. }
    destruct (plain_faithful _ _ _ _ _ _ _ _ BU B plains (fun w s => D s w) strong ignorable AP) as [FS FG]. split.
    - intros q acts a Q I. destruct (PQ _ _ Q) as (plain & Q' & S & -> & _). destruct (all_preserve rules (kernel m) (step m) D strong ignorable weaks SD ID ws (Z.of_nat q) KN plain S (fun a => FS q plain a Q')) as [SO _]. apply SO, I.
    - intros q x n ST N1 N2. destruct (FG q x n ST N1 N2) as (Q0 & plain & Q & a & I & T & X). split; [exact Q0|]. destruct (PP _ _ Q) as (acts & Q' & S & E & _). exists acts. split; [exact Q'|]. exists a. split; [|auto]. rewrite E. eapply (all_preserve rules (kernel m) (step m) D strong ignorable weaks SD ID ws _ KN plain S (fun a => FS _ plain a Q)); assumption.
  Qed.
End Rewritten.

(** The weak symbols in the tables are those declared; no symbol is a weak version of two *)
Lemma declared_strong rid rule_of ident sort sort_weak actss w D : declared w D -> (forall s s' x, D s x -> D s' x -> s = s') -> sorts weak_ltb sort_weak ->
  forall s x, D s x -> strong_for_weak (make_tables rid rule_of ident sort sort_weak actss (w_weak_for w)) x = s.
Proof.
  intros DC UN SW s x DX. destruct (C56_strong rid rule_of ident sort sort_weak actss (w_weak_for w) x SW) as [W|[_ N]]; [|exfalso; apply (N s), (declared_pairs _ _ DC), DX]. apply (declared_pairs _ _ DC) in W. eapply UN; eassumption.
Qed.
(** A parser with any of the project's rewriters, in any order.  [D]: which symbols are declared weak *)
Record rewritten rid rule_of (ident : item -> Z) sort sort_weak first_of rules u busy languages (w : weak_syms) (D : Z -> Z -> Prop) (ignorable : Z -> Prop) (rewriters : list rewriter) (actss : list action_set) (m : machine) (guards : guard_states) : Prop := {
  rw_buildable : buildable rid first_of rules u languages;
  rw_ends : ~ u IEoi /\ ~ u IEog;
  rw_built : built rid first_of rules u busy languages m guards;
  rw_ident : forall i j, ident i = ident j -> i = j;
  rw_sorts : sorts entry_ltb sort /\ sorts weak_ltb sort_weak;
  rw_fits : fits rid rule_of actss;
  rw_declared : declared w D;
  rw_unique : forall s s' x, D s x -> D s' x -> s = s';
  rw_ignorable : forall s x, D s x -> ignorable s -> ignorable x;
  rw_known : Forall (known_rewriter D ignorable (w_weak_for w)) rewriters;
  rw_actions : all_rewritten rid first_of rules u busy m guards rewriters actss }.
Lemma rewritten_compiled rid rule_of ident sort sort_weak first_of rules u busy languages w D ignorable rewriters actss m guards :
  rewritten rid rule_of ident sort sort_weak first_of rules u busy languages w D ignorable rewriters actss m guards ->
  compiled rid rule_of ident sort sort_weak first_of rules u busy languages (fun x s => D s x) ignorable (w_weak_for w) actss m guards.
Proof.
  intros [BU EN B II [SO SW] FI DC UN IG KN AR]. constructor; try assumption. eapply rewritten_faithful; try eassumption. intros s x. apply declared_strong; assumption.
Qed.
(** C37 with rewriters: accepted input is derived from the language, up to the symbols that were ignored and
    the weak symbols read as strong ones, by the rules whose reductions were reported. *)
Theorem C37_rewritten_partial : forall rid rule_of ident sort sort_weak first_of rules u busy languages w D ignorable rewriters actss m guards l q,
  rewritten rid rule_of ident sort sort_weak first_of rules u busy languages w D ignorable rewriters actss m guards -> (forall k, kernel m q k <-> k = language_start l) ->
  forall L matched renamed V shift_value reduce_value v0 input fuel p,
  parse (make_tables rid rule_of ident sort sort_weak actss (w_weak_for w)) L matched renamed V shift_value reduce_value fuel (start_parser L V q v0 input) = Done (true, p) ->
  p_input p = [] /\ exists tree rs word,
    parses_all rules rid ident L matched renamed (fun x s => D s x) ignorable [l] [tree] input [] /\
    map snd (s_stack (p_run p)) = [value L V shift_value reduce_value tree; v0] /\
    rightmost rules rs [l] word /\ Forall shiftable word /\ spells L matched (fun x s => D s x) ignorable word input /\
    reductions L V (s_calls (p_run p)) = reported rid ident rs.
Proof. intros until 1. intros KQ. intros. eapply C37_derivation_partial; [eapply rewritten_compiled; eassumption|exact KQ|eassumption]. Qed.
Print Assumptions C37_rewritten_partial.
(** C38 with rewriters *)
Theorem C38_rewritten_partial : forall rid rule_of ident sort sort_weak first_of rules u busy languages w D ignorable rewriters actss m guards l q,
  rewritten rid rule_of ident sort sort_weak first_of rules u busy languages w D ignorable rewriters actss m guards -> In l languages -> (forall k, kernel m q k <-> k = language_start l) ->
  forall L matched renamed input fuel v0 p,
  ast_parse (make_tables rid rule_of ident sort sort_weak actss (w_weak_for w)) matched renamed fuel (start_parser L (ast L) q v0 input) = Done (true, p) ->
  exists tree, map snd (s_stack (p_run p)) = [tree; v0] /\ shaped rules rid ident L l tree /\
    ((forall p g, ~ u (IGuard p g)) -> reads L matched renamed (fun x s => D s x) ignorable (leaves L tree) input).
Proof. intros until 1. intros LI KQ. intros. eapply C38_shape_partial; [eapply rewritten_compiled; eassumption|exact LI|exact KQ|eassumption]. Qed.
Print Assumptions C38_rewritten_partial.

(** 0 -> 0 t5 0 | t4, with t5 left-associative, t6 a weak version of t4 and t9 ignored: the input
    9 4 5 9 6 5 4 is accepted. *)
Definition nts_ambiguous : grammar_of := [(0, [[INonterm 0; ITerm 5; INonterm 0]; [ITerm 4]])].
Definition items_ambiguous : list item := [INonterm 0; ITerm 4; ITerm 5].
Definition weak_ambiguous : weak_syms := weak_add (ITerm 4) [ITerm 6] no_weak.
Definition block_ambiguous : precedence_block := [(Left_assoc, [5])].
Definition rewriters_ambiguous : list rewriter := [precedence_rewrite (block_precedence block_ambiguous) (block_associativity block_ambiguous) (fun _ => []); weak_rewrite weak_ambiguous; ignored_rewrite (ignoring (map ITerm [9]))].
Definition rewrite_all (ws : list rewriter) (actss : list action_set) : list action_set := map (fun '(q, acts) => fold_left (fun s (w : rewriter) => w (Z.of_nat q) s) ws acts) (combine (seq 0 (length actss)) actss).
Lemma combine_nth {A} (l : list A) n : forall k q x, nth_error (combine (seq k n) l) q = Some x -> exists a, x = ((k + q)%nat, a) /\ nth_error l q = Some a.
Proof.
  revert n. induction l as [|a l IH]; intros n k q x E; [destruct (seq k n), q; discriminate E|]. destruct n as [|n]; [destruct q; discriminate E|]. destruct q as [|q]; cbn in E; [injection E as <-; exists a; split; [f_equal; lia|reflexivity]|]. apply IH in E. destruct E as (b & -> & E). exists b. split; [f_equal; lia|exact E].
Qed.
Lemma rewrite_all_ok rid first_of rules u busy m guards ws actss : all_plain rid first_of rules u busy m guards actss -> all_rewritten rid first_of rules u busy m guards ws (rewrite_all ws actss).
Proof.
  intros [LN AP]. split; [unfold rewrite_all; rewrite map_length, combine_length, seq_length, Nat.min_id; exact LN|]. intros q acts Q. unfold rewrite_all in Q. rewrite nth_error_map in Q. destruct (nth_error (combine _ _) q) as [x|] eqn:E; [|discriminate Q]. apply combine_nth in E. destruct E as (a & -> & E). cbn in Q. injection Q as <-. destruct (AP _ _ E) as (fuel & c & c' & AC & PA). exists fuel, c, c'. split; [exact AC|]. unfold actions_for_state. rewrite PA. reflexivity.
Qed.
Example C37_rewritten_nontrivial : exists m guards actss p, tool nts_ambiguous items_ambiguous [INonterm 0] = Some (m, guards, actss) /\
  rewritten rule_number (rule_in (all_rules nts_ambiguous items_ambiguous [INonterm 0])) item_number (insertion_sort entry_ltb) (insertion_sort weak_ltb) (first_by (rules_of nts_ambiguous) 20) (rules_of nts_ambiguous) (fun i => In i items_ambiguous) one_object [INonterm 0]
    weak_ambiguous (fun s x => False \/ s = 4 /\ In (ITerm x) [ITerm 6]) (fun s => s = 9) rewriters_ambiguous (rewrite_all rewriters_ambiguous actss) m guards /\
  (forall k, kernel m 0 k <-> k = language_start (INonterm 0)) /\
  tool_ast (tool_tables nts_ambiguous items_ambiguous [INonterm 0] (rewrite_all rewriters_ambiguous actss) (w_weak_for weak_ambiguous)) 40 0 [9; 4; 5; 9; 6; 5; 4] = Done (true, p).
Proof.
  destruct (tool nts_ambiguous items_ambiguous [INonterm 0]) as [[[m g] a]|] eqn:E; [|vm_compute in E; discriminate E]. pose proof (tool_compiled _ _ _ (fun _ _ => False) (fun _ => False) _ _ _ E) as CO. destruct (tool_ok _ _ _ _ _ _ E) as [_ _ _ LN AC _]. vm_compute in E. injection E as <- <- <-.
  eexists. eexists. eexists. eexists. split; [reflexivity|]. split; [|split; [|vm_compute; reflexivity]].
  - destruct CO as [BU EN B II SO FI _]. constructor; try assumption.
    + split; [exact SO|apply weak_sorts].
    + apply fits_checked. vm_compute. reflexivity.
    + apply declared_add; [constructor|repeat constructor|intros i [<- |[]]; eauto].
    + intros s s' x [[]|[-> _]] [[]|[-> _]]. reflexivity.
    + intros s x [[]|[-> _]] X. discriminate X.
    + constructor; [apply known_precedence|]. constructor; [apply known_weak; [apply declared_add; [constructor|repeat constructor|intros i [<- |[]]; eauto]|reflexivity]|]. constructor; [apply known_ignored; intros s [<- |[]]; reflexivity|constructor].
    + apply rewrite_all_ok. split; [exact LN|exact AC].
  - intros k. split; [intros (s & S & K); vm_compute in S; injection S as <-; destruct K as [<-|[]]; reflexivity|intros ->; eexists; split; [vm_compute; reflexivity|left; reflexivity]].
Qed.
