(** Proofs about the messages of the stage that makes a parser. *)
From Verif Require Import Base OrdMap GrammarModel GrammarProofs FirstModel FirstProofs LrItemModel LrItemProofs ClosureModel ClosureSpec ClosureProofs ClosureProps MachineModel BuilderModel BuilderSpec BuilderProofs BuilderProps ActionModel ActionSpec ActionProofs ActionProps RewriteModel ConflictModel ConflictSpec ConflictProps StageModel StageSpec.
From Coq Require Import Sorted.
Local Open Scope Z_scope.

Lemma filter_flat {A B} (p : B -> bool) (f : A -> list B) l : filter p (flat_map f l) = flat_map (fun x => filter p (f x)) l.
Proof. induction l as [|x l IH]; [reflexivity|]. cbn [flat_map]. rewrite filter_app, IH. reflexivity. Qed.
Lemma filter_none {A} (p : A -> bool) l : (forall x, In x l -> p x = false) -> filter p l = [].
Proof. induction l as [|x l IH]; intros H; [reflexivity|]. cbn [filter]. rewrite (H x (or_introl eq_refl)). apply IH. intros y I. apply H. right. exact I. Qed.

(** One conflict gives one message that is not a detail. *)
Lemma shift_rest o f l : filter reports_conflict (shift_messages o f false l) = [].
Proof. induction l as [|k l IH]; [reflexivity|]. cbn [shift_messages]. rewrite filter_app, IH. destruct (o_details o); reflexivity. Qed.
Lemma reduce_rest o f l : filter reports_conflict (reduce_messages o f false l) = [].
Proof. induction l as [|[k ids] l IH]; [reflexivity|]. cbn [reduce_messages]. cbn. exact IH. Qed.
Lemma reduce_shift o f b l : f_shift f <> [] -> filter reports_conflict (reduce_messages o f b l) = [].
Proof. intros N. destruct l as [|[k ids] l]; [reflexivity|]. cbn [reduce_messages]. destruct (f_shift f); [contradiction|]. rewrite andb_false_r. cbn. apply reduce_rest. Qed.
Lemma conflict_head o f : f_shift f <> [] \/ f_reduce f <> [] ->
  exists k, filter reports_conflict (conflict_messages o f) =
    [if match f_shift f with [] => true | _ => false end then mkMessage (reduce_reduce_severity o) CONFLICT_REDUCE_REDUCE (f_state f) (f_token f) (Some k) else mkMessage (shift_reduce_severity o) CONFLICT_SHIFT_REDUCE (f_state f) (f_token f) (Some k)] /\
    (In k (f_shift f) \/ f_shift f = [] /\ In k (map fst (f_reduce f))).
Proof.
  intros N. unfold conflict_messages. rewrite !filter_app.
  assert (TL : filter reports_conflict (match f_reduce f with [] => match f_shift f with [] => [mkMessage SevBug BUG_CONFLICT_NO_ACTIONS (f_state f) (f_token f) None] | _ => [mkMessage SevBug BUG_CONFLICT_NO_REDUCE (f_state f) (f_token f) None] end | _ => [] end) = []) by (destruct (f_reduce f), (f_shift f); reflexivity).
  rewrite TL, app_nil_r. destruct (f_shift f) as [|k l] eqn:S.
  - destruct N as [N|N]; [contradiction|]. destruct (f_reduce f) as [|[k ids] l]; [contradiction|]. exists k. cbn [shift_messages reduce_messages]. rewrite S. cbn. rewrite reduce_rest. split; [reflexivity|]. right. auto.
  - exists k. rewrite reduce_shift by congruence. cbn [shift_messages]. rewrite filter_app, shift_rest, app_nil_r. split; [|left; left; reflexivity]. cbn. unfold shift_reduce_severity. destruct (o_no_conflicts o); reflexivity.
Qed.
Lemma uses_code rid can_clash q x g kernel : forall shown aside m, In m (fst (fst (guard_uses rid can_clash q x g kernel shown aside))) -> reports_conflict m = false.
Proof.
  induction kernel as [|k kernel IH]; intros shown aside m; cbn [guard_uses]; [intros []|]. destruct (after_dot k) as [|j rest]; [apply IH|]. destruct (negb (item_eqb j g)); [apply IH|]. match goal with |- context [if ?c then _ else _] => destruct c end; [apply IH|].
  specialize (IH true aside m). destruct (guard_uses rid can_clash q x g kernel true aside) as [[ms s] a]. cbn [fst] in *. intros I. apply in_app_iff in I. destruct I as [I|[<-|I]]; [destruct shown; [destruct I|destruct I as [<-|[]]; reflexivity]|reflexivity|apply IH, I].
Qed.
Lemma all_uses_code rid can_clash q x gs kernel : forall shown aside m, In m (fst (fst (all_uses rid can_clash q x gs kernel shown aside))) -> reports_conflict m = false.
Proof.
  induction gs as [|g gs IH]; intros shown aside m; cbn [all_uses]; [intros []|]. pose proof (uses_code rid can_clash q x g kernel shown aside m) as U. destruct (guard_uses rid can_clash q x g kernel shown aside) as [[ms s] a]. specialize (IH s a m). destruct (all_uses rid can_clash q x gs kernel s a) as [[ms' s'] a'].
  cbn [fst] in *. intros I. apply in_app_iff in I. destruct I; auto.
Qed.
Lemma guard_messages_code rid can_clash q kernel l : forall warned m, In m (guard_messages rid can_clash q kernel l warned) -> reports_conflict m = false.
Proof.
  induction l as [|[x gs] l IH]; intros warned m; cbn [guard_messages]; [intros []|]. match goal with |- context [if ?c then _ else _] => destruct c end; [apply IH|]. pose proof (all_uses_code rid can_clash q x gs kernel false [] m) as U. destruct (all_uses rid can_clash q x gs kernel false []) as [[ms s] a]. cbn [fst] in U.
  intros I. rewrite !in_app_iff in I. destruct I as [I|[I|I]]; [apply U, I|destruct s; [apply in_map_iff in I; destruct I as (k & <- & _); reflexivity|destruct I]|eapply IH, I].
Qed.
Lemma all_guard_code rid can_clash m actss : forall q g, In g (all_guard_messages rid can_clash m q actss) -> reports_conflict g = false.
Proof. induction actss as [|acts actss IH]; intros q g; cbn [all_guard_messages]; [intros []|]. intros I. apply in_app_iff in I. destruct I as [I|I]; [eapply guard_messages_code, I|eapply IH, I]. Qed.

Section Conflicts.
  Context (rid : rule -> Z) (first_of : item -> iset) (rules : Z -> list (list item)) (u : item -> Prop) (busy : nat -> list item -> item -> bool) (sources : Z -> Z -> item -> list lid) (can_clash : rule -> nat -> bool) (languages : list item).
  Context (BU : buildable rid first_of rules u languages) (o : options) (rewriters : machine -> list rewriter) (RW : forall m w, In w (rewriters m) -> resolving w).
  Lemma found_facts fuel ms d : make_parser rid first_of rules busy sources can_clash o rewriters fuel languages = Some (ms, d) -> let m := d_machine d in
    built rid first_of rules u busy languages m (d_guards d) /\
    (forall f, In f (d_found d) -> right_conflict first_of rules languages m f /\ (f_shift f <> [] \/ f_reduce f <> [])) /\
    (forall q x, In (q, x) (map (fun f => (f_state f, f_token f)) (d_found d)) <-> is_state m q /\ clash (rewritten_actions first_of rules languages m (rewriters m) q) x) /\
    NoDup (map (fun f => (f_state f, f_token f)) (d_found d)) /\
    ms = flat_map (conflict_messages o) (d_found d) ++ all_guard_messages rid can_clash m 0 (d_actions d).
  Proof.
    unfold make_parser. destruct (complete_parser rid first_of rules busy fuel fuel _ [] ([], 0%nat)) as [[[[m g] p] c]|] eqn:E; [|discriminate].
    assert (B : built rid first_of rules u busy languages m g) by (exists fuel, fuel, ([], 0%nat), p, c; split; [constructor|exact E]).
    assert (AC : any_calls rid first_of rules u busy c) by (eapply any_parser; [apply any_closures; constructor|apply BU|exact E]).
    destruct (find_conflicts rid first_of rules busy sources fuel m g (rewriters m) c) as [[found c1]|] eqn:FC; [|discriminate].
    destruct (all_actions rid first_of rules busy fuel m g (rewriters m) (state_ids m) c1) as [[actss c2]|] eqn:AA; [|discriminate]. intros X. injection X as <- <-. cbn [d_machine d_guards d_found d_actions d_initial]. cbv zeta.
    pose proof (C36_resolved_partial _ _ _ _ _ sources _ _ _ _ _ _ _ _ BU B AC (RW m) FC) as CL.
    assert (OW : Forall orderly (rewriters m)) by (apply Forall_forall; intros w I q acts S; apply (RW m w I q acts S)).
    apply (conflicts_exact _ _ _ _ _ sources _ _ _ BU B _ _ OW) in FC; [|apply state_ids_once|eapply any_calls_ok; [apply BU|apply BU|apply BU|apply BU|exact AC]]. destruct FC as (_ & RC & HR & ND & _).
    split; [exact B|]. split; [|split; [exact CL|split; [exact ND|reflexivity]]]. intros f I. split; [apply RC, I|]. destruct (RC f I) as [R1 R2]. destruct (proj1 (HR (f_state f) (f_token f)) (in_map (fun f => (f_state f, f_token f)) _ _ I)) as (_ & _ & k & [K|K]).
    - left. apply R1 in K. destruct (f_shift f); [destruct K|discriminate].
    - right. apply R2 in K. destruct (f_reduce f); [destruct K|discriminate].
  Qed.
  Lemma heads fuel ms d : make_parser rid first_of rules busy sources can_clash o rewriters fuel languages = Some (ms, d) ->
    map (fun g => (g_state g, g_token g)) (filter reports_conflict ms) = map (fun f => (f_state f, f_token f)) (d_found d) /\
    forall g, In g ms -> reports_conflict g = true -> exists f, In f (d_found d) /\ g_state g = f_state f /\ g_token g = f_token f /\
      if match f_shift f with [] => true | _ => false end then g_severity g = reduce_reduce_severity o /\ g_code g = CONFLICT_REDUCE_REDUCE else g_severity g = shift_reduce_severity o /\ g_code g = CONFLICT_SHIFT_REDUCE.
  Proof.
    intros H. destruct (found_facts fuel ms d H) as (_ & FR & _ & _ & ->).
    assert (F : filter reports_conflict (flat_map (conflict_messages o) (d_found d) ++ all_guard_messages rid can_clash (d_machine d) 0 (d_actions d)) = flat_map (fun f => filter reports_conflict (conflict_messages o f)) (d_found d)) by (rewrite filter_app, filter_flat, (filter_none _ (all_guard_messages _ _ _ _ _)) by (intros x; apply all_guard_code); apply app_nil_r).
    split.
    - rewrite F. clear F H. induction (d_found d) as [|f l IH]; [reflexivity|]. cbn [flat_map map]. rewrite map_app, IH by (intros; apply FR; right; assumption). destruct (conflict_head o f (proj2 (FR f (or_introl eq_refl)))) as (k & -> & _). destruct (f_shift f); reflexivity.
    - intros g I R. assert (G : In g (flat_map (fun f => filter reports_conflict (conflict_messages o f)) (d_found d))) by (rewrite <- F; apply filter_In; auto). apply in_flat_map in G. destruct G as (f & I' & G). exists f. split; [exact I'|].
      destruct (conflict_head o f (proj2 (FR f I'))) as (k & E & _). rewrite E in G. destruct G as [<-|[]]. destruct (f_shift f); cbn; auto.
  Qed.
End Conflicts.

Section GuardMessages.
  Context (rid : rule -> Z) (can_clash : rule -> nat -> bool) (q : Z) (kernel : list lr0).
  (** An item with the guard [g] next that may not clash *)
  Definition used (g : item) (k : lr0) : Prop := In k kernel /\ can_clash (l_rule k) (l_offset k) = false /\ exists rest, after_dot k = g :: rest.
  Definition warning (x : item) (k : lr0) : message := mkMessage SevWarning CLASHING_GUARDS q x (Some k).
  Definition detail (x : item) (k : lr0) : message := mkMessage SevDetail CLASHING_GUARDS_DETAIL q x (Some k).
  Lemma guard_uses_spec x g ks : (forall k, In k ks -> In k kernel) -> forall shown aside, let '(ms, shown', _) := guard_uses rid can_clash q x g ks shown aside in
    (forall m, In m ms -> exists k, used g k /\ (m = warning x k \/ m = detail x k)) /\
    (forall k, In k ks -> used g k -> In (detail x k) ms /\ shown' = true) /\
    (shown = true -> shown' = true) /\ (shown = false -> shown' = true -> exists k, In (warning x k) ms).
  Proof.
    induction ks as [|k ks IH]; intros KS shown aside; cbn [guard_uses]; [split; [intros m []|]; split; [intros k []|]; split; [auto|congruence]|]. assert (KS' : forall k, In k ks -> In k kernel) by (intros; apply KS; right; assumption).
    destruct (after_dot k) as [|j rest] eqn:A.
    { specialize (IH KS' shown aside). destruct (guard_uses rid can_clash q x g ks shown aside) as [[ms s'] a']. destruct IH as (H1 & H2 & H3 & H4). split; [exact H1|]. split; [|split; [exact H3|exact H4]]. intros k' [<-|I] U; [destruct U as (_ & _ & r & E); congruence|apply H2; assumption]. }
    destruct (item_eqb j g) eqn:EG; cbn [negb].
    2: { specialize (IH KS' shown aside). destruct (guard_uses rid can_clash q x g ks shown aside) as [[ms s'] a']. destruct IH as (H1 & H2 & H3 & H4). split; [exact H1|]. split; [|split; [exact H3|exact H4]]. intros k' [<-|I] U; [|apply H2; assumption].
         destruct U as (_ & _ & r & E). rewrite A in E. injection E as -> _. pose proof (proj2 (item_eqb_spec g g) eq_refl). congruence. }
    apply item_eqb_spec in EG. subst j. destruct (can_clash (l_rule k) (l_offset k)) eqn:CC.
    { specialize (IH KS' shown (sins (lr0_ltb rid) k aside)). destruct (guard_uses rid can_clash q x g ks shown (sins (lr0_ltb rid) k aside)) as [[ms s'] a']. destruct IH as (H1 & H2 & H3 & H4). split; [exact H1|]. split; [|split; [exact H3|exact H4]]. intros k' [<-|I] U; [destruct U as (_ & X & _); congruence|apply H2; assumption]. }
    specialize (IH KS' true aside). destruct (guard_uses rid can_clash q x g ks true aside) as [[ms s'] a']. destruct IH as (H1 & H2 & H3 & _).
    assert (U : used g k) by (split; [apply KS; left; reflexivity|split; [exact CC|exists rest; exact A]]).
    split; [intros m I; apply in_app_iff in I; destruct I as [I|[<-|I]]; [destruct shown; [destruct I|destruct I as [<-|[]]; exists k; auto]|exists k; auto|apply H1, I]|].
    split; [intros k' [<-|I] U'; (split; [apply in_app_iff; right|])|].
    - left. reflexivity.
    - apply H3. reflexivity.
    - right. apply H2; assumption.
    - apply H3. reflexivity.
    - split; [intros _; apply H3; reflexivity|]. intros -> _. exists k. left. reflexivity.
  Qed.
  Lemma all_uses_spec x gs : forall shown aside, let '(ms, shown', _) := all_uses rid can_clash q x gs kernel shown aside in
    (forall m, In m ms -> exists g k, In g gs /\ used g k /\ (m = warning x k \/ m = detail x k)) /\
    (forall g k, In g gs -> used g k -> In (detail x k) ms /\ shown' = true) /\
    (shown = true -> shown' = true) /\ (shown = false -> shown' = true -> exists k, In (warning x k) ms).
  Proof.
    induction gs as [|g gs IH]; intros shown aside; cbn [all_uses]; [split; [intros m []|]; split; [intros g k []|]; split; [auto|congruence]|].
    pose proof (guard_uses_spec x g kernel (fun k I => I) shown aside) as U. destruct (guard_uses rid can_clash q x g kernel shown aside) as [[ms s1] a1]. destruct U as (U1 & U2 & U3 & U4).
    specialize (IH s1 a1). destruct (all_uses rid can_clash q x gs kernel s1 a1) as [[ms' s2] a2]. destruct IH as (H1 & H2 & H3 & H4). split; [|split; [|split]].
    - intros m I. apply in_app_iff in I. destruct I as [I|I]; [destruct (U1 m I) as (k & K & E); exists g, k; split; [left; reflexivity|auto]|destruct (H1 m I) as (g' & k & G & K); exists g', k; split; [right; exact G|exact K]].
    - intros g' k [<-|I] U; (split; [apply in_app_iff|]).
      + left. apply U2; [apply U|exact U].
      + apply H3. apply (U2 k); [apply U|exact U].
      + right. apply (H2 g' k I U).
      + apply (H2 g' k I U).
    - auto.
    - intros E1 E2. destruct s1; [destruct (U4 E1 eq_refl) as [k K]; exists k; apply in_app_iff; auto|destruct (H4 eq_refl E2) as [k K]; exists k; apply in_app_iff; auto].
  Qed.
  Lemma long_two (gs : iset) g : set_ok gs -> In g gs -> (Nat.leb (length gs) 1 = false <-> exists g', g' <> g /\ In g' gs).
  Proof.
    intros S I. split.
    - intros L. apply Nat.leb_gt in L. destruct gs as [|a [|b gs]]; cbn in L; [lia|lia|]. pose proof (ssorted_cons item_ltb a (b :: gs)) as SC. assert (NE : a <> b). { intros ->. apply SC in S. destruct S as [_ S]. specialize (S b (or_introl eq_refl)). rewrite (st_irrefl _ item_strict) in S. discriminate S. }
      destruct (item_eqb a g) eqn:E; [apply item_eqb_spec in E; subst a; exists b; split; [congruence|right; left; reflexivity]|]. exists a. split; [|left; reflexivity]. intros ->. pose proof (proj2 (item_eqb_spec g g) eq_refl). congruence.
    - intros (g' & NE & I'). apply Nat.leb_gt. destruct gs as [|a [|b gs]]; [destruct I|destruct I as [->|[]]; destruct I' as [->|[]]; congruence|cbn; lia].
  Qed.
  Lemma fold_insert gs : forall w g, In g (fold_left (fun s g => iinsert g s) gs w) <-> In g gs \/ In g w.
  Proof. induction gs as [|a gs IH]; intros w g; cbn [fold_left]; [cbn; tauto|]. rewrite IH. unfold iinsert. rewrite (sins_in _ item_strict). cbn [In]. intuition congruence. Qed.
  Lemma fold_insert_ok gs : forall w, set_ok w -> set_ok (fold_left (fun s g => iinsert g s) gs w).
  Proof. induction gs as [|a gs IH]; intros w S; [exact S|]. cbn [fold_left]. apply IH, iinsert_ok, S. Qed.
  Lemma guard_messages_find l : forall warned x gs g k, set_ok warned -> In (x, gs) l -> Nat.leb (length gs) 1 = false -> In g gs -> used g k ->
    In g warned \/ exists x' k', In (warning x' k') (guard_messages rid can_clash q kernel l warned) /\ In (detail x' k) (guard_messages rid can_clash q kernel l warned).
  Proof.
    induction l as [|[x0 gs0] l IH]; intros warned x gs g k SW I L G U; [destruct I|]. cbn [guard_messages]. destruct (_ || _)%bool eqn:SK.
    - destruct I as [E|I]; [|eapply IH; eassumption]. injection E as <- <-. rewrite L in SK. cbn in SK. rewrite forallb_forall in SK. left. apply icontains_in; [exact SW|apply SK, G].
    - pose proof (all_uses_spec x0 gs0 false []) as AU. destruct (all_uses rid can_clash q x0 gs0 kernel false []) as [[ms s] a]. destruct AU as (_ & A2 & _ & A4).
      assert (HD : In g gs0 -> exists x' k', In (warning x' k') (ms ++ (if s then map (fun k => mkMessage SevDetail CLASHING_GUARDS_DETAIL q x0 (Some k)) a else []) ++ guard_messages rid can_clash q kernel l (fold_left (fun s g => iinsert g s) gs0 warned)) /\
        In (detail x' k) (ms ++ (if s then map (fun k => mkMessage SevDetail CLASHING_GUARDS_DETAIL q x0 (Some k)) a else []) ++ guard_messages rid can_clash q kernel l (fold_left (fun s g => iinsert g s) gs0 warned))).
      { intros G0. destruct (A2 g k G0 U) as [D ->]. destruct (A4 eq_refl eq_refl) as [k' W]. exists x0, k'. split; apply in_app_iff; left; assumption. }
      destruct I as [E|I]; [injection E as <- <-; right; apply HD, G|]. destruct (IH (fold_left (fun s g => iinsert g s) gs0 warned) x gs g k (fold_insert_ok gs0 warned SW) I L G U) as [W|(x' & k' & W1 & W2)].
      + apply fold_insert in W. destruct W as [W|W]; [right; apply HD, W|left; exact W].
      + right. exists x', k'. rewrite !in_app_iff. auto.
  Qed.
  Lemma guard_messages_sound l : forall warned m, In m (guard_messages rid can_clash q kernel l warned) -> g_code m = CLASHING_GUARDS ->
    exists x gs g k, In (x, gs) l /\ Nat.leb (length gs) 1 = false /\ In g gs /\ used g k /\ m = warning x k.
  Proof.
    induction l as [|[x gs] l IH]; intros warned m; cbn [guard_messages]; [intros []|]. destruct (_ || _)%bool eqn:SK.
    - intros I C. destruct (IH _ _ I C) as (x' & gs' & g & k & X & Y). exists x', gs', g, k. split; [right; exact X|exact Y].
    - apply orb_false_iff in SK. destruct SK as [SK _]. pose proof (all_uses_spec x gs false []) as AU. destruct (all_uses rid can_clash q x gs kernel false []) as [[ms s] a]. destruct AU as (A1 & _). intros I C. rewrite !in_app_iff in I. destruct I as [I|[I|I]].
      + destruct (A1 m I) as (g & k & G & U & [->| ->]); [|discriminate C]. exists x, gs, g, k. split; [left; reflexivity|auto].
      + destruct s; [|destruct I]. apply in_map_iff in I. destruct I as (k & <- & _). discriminate C.
      + destruct (IH _ _ I C) as (x' & gs' & g & k & X & Y). exists x', gs', g, k. split; [right; exact X|exact Y].
  Qed.
End GuardMessages.

Lemma by_symbol_spec acts : msorted item_ltb (guards_by_symbol acts) /\ forall x, match mfind item_ltb x (guards_by_symbol acts) with Some gs => set_ok gs /\ forall g, In g gs <-> checked_on acts x g | None => forall g, ~ checked_on acts x g end.
Proof.
  unfold guards_by_symbol. induction acts as [|a acts IH] using rev_ind; [split; [constructor|intros x g (a & s & [] & _)]|]. rewrite fold_left_app. cbn [fold_left]. set (M := fold_left _ acts []) in *. clearbody M. destruct IH as [S F].
  assert (ON : forall x g, checked_on (acts ++ [a]) x g <-> checked_on acts x g \/ (exists s, a_type a = Guard /\ a_item a = ITerm s /\ x = ITerm s /\ r_nonterminal (a_rule a) = g)).
  { intros x g. unfold checked_on. split.
    - intros (b & s & I & X). apply in_app_iff in I. destruct I as [I|[<-|[]]]; [left; exists b, s; auto|right; exists s; exact X].
    - intros [(b & s & I & X)|(s & X)]; [exists b, s|exists a, s]; (split; [apply in_app_iff; cbn; auto|exact X]). }
  destruct (checks_guard a) eqn:CG.
  - unfold checks_guard in CG. destruct (a_type a) eqn:T; try discriminate CG. destruct (a_item a) as [| | |t| | |] eqn:AI; try discriminate CG.
    split; [apply (mset_sorted _ item_strict), S|]. intros x. destruct (item_eqb x (ITerm t)) eqn:E.
    + apply item_eqb_spec in E. subst x. rewrite (mfind_mset_same _ item_strict) by exact S. specialize (F (ITerm t)). destruct (mfind item_ltb (ITerm t) M) as [gs|].
      * destruct F as [SG FG]. split; [apply (sins_sorted _ item_strict), SG|]. intros g. unfold iinsert. rewrite (sins_in _ item_strict), ON, FG. split; [intros [->|X]; [right; exists t; auto|auto]|]. intros [X|(s & _ & _ & _ & X)]; auto.
      * split; [apply (sins_sorted _ item_strict); constructor|]. intros g. unfold iinsert. rewrite (sins_in _ item_strict), ON. split; [intros [->|[]]; right; exists t; auto|]. intros [X|(s & _ & _ & _ & X)]; [destruct (F g X)|auto].
    + assert (NE : x <> ITerm t) by (intros ->; pose proof (proj2 (item_eqb_spec (ITerm t) (ITerm t)) eq_refl); congruence). rewrite (mfind_mset_other _ item_strict) by auto. specialize (F x). destruct (mfind item_ltb x M) as [gs|].
      * destruct F as [SG FG]. split; [exact SG|]. intros g. rewrite ON, FG. split; [auto|]. intros [X|(s & _ & X1 & X2 & _)]; [exact X|]. congruence.
      * intros g X. apply ON in X. destruct X as [X|(s & _ & X1 & X2 & _)]; [exact (F g X)|congruence].
  - split; [exact S|]. assert (NO : forall x g, ~ (exists s, a_type a = Guard /\ a_item a = ITerm s /\ x = ITerm s /\ r_nonterminal (a_rule a) = g)). { intros x g (s & T & AI & _). unfold checks_guard in CG. rewrite T, AI in CG. discriminate CG. }
    intros x. specialize (F x). destruct (mfind item_ltb x M) as [gs|]; [destruct F as [SG FG]; split; [exact SG|]; intros g; rewrite ON, FG; split; [auto|intros [X|X]; [exact X|destruct (NO _ _ X)]]|]. intros g X. apply ON in X. destruct X as [X|X]; [exact (F g X)|destruct (NO _ _ X)].
Qed.
(** The warnings about guards of one state *)
Lemma state_warnings rid can_clash q kernel acts x k : clashing can_clash acts kernel x k ->
  exists x' k', In (warning q x' k') (guard_messages rid can_clash q kernel (guards_by_symbol acts) []) /\ In (detail q x' k) (guard_messages rid can_clash q kernel (guards_by_symbol acts) []).
Proof.
  intros (KI & CC & g & rest & A & CO & g' & NE & CO'). destruct (by_symbol_spec acts) as [S F]. specialize (F x). destruct (mfind item_ltb x (guards_by_symbol acts)) as [gs|] eqn:M; [|destruct (F g CO)]. destruct F as [SG FG].
  apply (mfind_in _ item_strict) in M; [|exact S]. destruct (guard_messages_find rid can_clash q kernel (guards_by_symbol acts) [] x gs g k (SSorted_nil _) M) as [[]|W]; [|apply FG, CO| |exact W].
  - apply (long_two gs g SG); [apply FG, CO|]. exists g'. split; [exact NE|apply FG, CO'].
  - split; [exact KI|]. split; [exact CC|exists rest; exact A].
Qed.
Lemma state_warnings_sound rid can_clash q kernel acts m : In m (guard_messages rid can_clash q kernel (guards_by_symbol acts) []) -> g_code m = CLASHING_GUARDS -> exists x k, m = warning q x k /\ clashing can_clash acts kernel x k.
Proof.
  intros I C. destruct (guard_messages_sound rid can_clash q kernel _ _ _ I C) as (x & gs & g & k & X & L & G & (KI & CC & rest & A) & ->). exists x, k. split; [reflexivity|]. destruct (by_symbol_spec acts) as [S F]. specialize (F x).
  rewrite (proj2 (mfind_in _ item_strict _ S x gs) X) in F. destruct F as [SG FG]. split; [exact KI|]. split; [exact CC|]. exists g, rest. split; [exact A|]. split; [apply FG, G|]. destruct (proj1 (long_two gs g SG G) L) as (g' & NE & G'). exists g'. split; [exact NE|apply FG, G'].
Qed.
Lemma all_warnings rid can_clash m actss : forall q0 g, In g (all_guard_messages rid can_clash m q0 actss) <->
  exists n acts, nth_error actss n = Some acts /\ In g (guard_messages rid can_clash (q0 + Z.of_nat n) (match state_with_id (q0 + Z.of_nat n) m with Some s => st_list s | None => [] end) (guards_by_symbol acts) []).
Proof.
  induction actss as [|acts actss IH]; intros q0 g; cbn [all_guard_messages]; [split; [intros []|intros ([|n] & acts & X & _); discriminate X]|]. rewrite in_app_iff, IH. split.
  - intros [I|(n & acts' & X & I)]; [exists O, acts; cbn [nth_error Z.of_nat]; rewrite Z.add_0_r; auto|]. exists (S n), acts'. split; [exact X|]. replace (q0 + Z.of_nat (S n)) with (q0 + 1 + Z.of_nat n) by lia. exact I.
  - intros ([|n] & acts' & X & I); cbn [nth_error] in X; [injection X as <-; cbn [Z.of_nat] in I; rewrite Z.add_0_r in I; auto|]. right. exists n, acts'. split; [exact X|]. replace (q0 + 1 + Z.of_nat n) with (q0 + Z.of_nat (S n)) by lia. exact I.
Qed.

(** The actions that are left in the end *)
Section Left.
  Context (rid : rule -> Z) (first_of : item -> iset) (rules : Z -> list (list item)) (u : item -> Prop) (busy : nat -> list item -> item -> bool) (languages : list item) (m : machine) (guards : guard_states).
  Context (BU : buildable rid first_of rules u languages) (B : built rid first_of rules u busy languages m guards).
  Lemma all_actions_exact fuel ws : Forall orderly ws -> forall qs c actss c', cache_ok rid first_of rules u (fst c) -> all_actions rid first_of rules busy fuel m guards ws qs c = Some (actss, c') ->
    Forall2 (fun q acts => ssorted action_ltb acts /\ forall a, In a acts <-> rewritten_actions first_of rules languages m ws q a) qs actss.
  Proof.
    intros OW. induction qs as [|q qs IH]; intros c actss c' CO H; cbn [all_actions] in H; [injection H as <- <-; constructor|].
    unfold actions_for_state in H. destruct (plain_actions rid first_of rules busy fuel m guards q c) as [[acts c1]|] eqn:PA; [|discriminate H]. apply (plain_exact _ _ _ _ _ _ _ _ BU B) in PA; [|exact CO]. destruct PA as (CO1 & SA & EA).
    destruct (all_actions rid first_of rules busy fuel m guards ws qs c1) as [[more c2]|] eqn:AA; [|discriminate H]. injection H as <- <-. constructor; [|eapply IH; eassumption].
    split; [apply rewritten_sorted; assumption|]. intros a. split; [intros I; exists acts; auto|]. intros (acts' & S' & E' & I). replace acts with acts'; [exact I|]. apply (ssorted_ext _ action_strict); [exact S'|exact SA|]. intros b. rewrite EA. apply E'.
  Qed.
End Left.
Section LeftActions.
  Context (rid : rule -> Z) (first_of : item -> iset) (rules : Z -> list (list item)) (u : item -> Prop) (busy : nat -> list item -> item -> bool) (sources : Z -> Z -> item -> list lid) (can_clash : rule -> nat -> bool) (languages : list item).
  Context (BU : buildable rid first_of rules u languages) (o : options) (rewriters : machine -> list rewriter) (RW : forall m w, In w (rewriters m) -> resolving w).
  Lemma left_actions fuel ms d : make_parser rid first_of rules busy sources can_clash o rewriters fuel languages = Some (ms, d) -> let m := d_machine d in
    forall q, (is_state m q <-> exists n acts, q = Z.of_nat n /\ nth_error (d_actions d) n = Some acts) /\
    forall n acts, q = Z.of_nat n -> nth_error (d_actions d) n = Some acts -> ssorted action_ltb acts /\ forall a, In a acts <-> rewritten_actions first_of rules languages m (rewriters m) q a.
  Proof.
    unfold make_parser. destruct (complete_parser rid first_of rules busy fuel fuel _ [] ([], 0%nat)) as [[[[m g] p] c]|] eqn:E; [|discriminate].
    assert (B : built rid first_of rules u busy languages m g) by (exists fuel, fuel, ([], 0%nat), p, c; split; [constructor|exact E]).
    assert (AC : any_calls rid first_of rules u busy c) by (eapply any_parser; [apply any_closures; constructor|apply BU|exact E]).
    assert (OW : Forall orderly (rewriters m)) by (apply Forall_forall; intros w I q acts S; apply (RW m w I q acts S)).
    destruct (find_conflicts rid first_of rules busy sources fuel m g (rewriters m) c) as [[found c1]|] eqn:FC; [|discriminate].
    destruct (all_actions rid first_of rules busy fuel m g (rewriters m) (state_ids m) c1) as [[actss c2]|] eqn:AA; [|discriminate]. intros X. injection X as <- <-. cbn [d_machine d_guards d_found d_actions d_initial]. cbv zeta.
    apply (conflicts_exact _ _ _ _ _ sources _ _ _ BU B _ _ OW) in FC; [|apply state_ids_once|eapply any_calls_ok; [apply BU|apply BU|apply BU|apply BU|exact AC]]. destruct FC as (CO & _).
    apply (all_actions_exact _ _ _ _ _ _ _ _ BU B _ _ OW) in AA; [|exact CO]. intros q.
    assert (NS : forall n acts, nth_error actss n = Some acts -> nth_error (state_ids m) n = Some (Z.of_nat n)).
    { intros n acts N. assert (L : (n < length (state_ids m))%nat) by (rewrite (Forall2_length _ _ _ AA); apply (proj1 (nth_error_Some actss n)); rewrite N; discriminate). unfold state_ids in *. rewrite map_length, seq_length in L. rewrite nth_error_map, (nth_error_nth' _ 0%nat) by (rewrite seq_length; exact L). cbn. rewrite seq_nth by exact L. reflexivity. }
    split.
    - rewrite <- state_ids_state. split.
      + intros I. unfold state_ids in I. apply in_map_iff in I. destruct I as (n & <- & I). apply in_seq in I. destruct (nth_error actss n) as [acts|] eqn:N; [eauto|]. apply nth_error_None in N. pose proof (Forall2_length _ _ _ AA) as LN. unfold state_ids in LN. rewrite map_length, seq_length in LN. exfalso. apply (Nat.lt_irrefl n). eapply Nat.lt_le_trans; [apply I|]. cbn [Nat.add]. eapply Nat.le_trans; [|exact N]. apply Nat.eq_le_incl. exact LN.
      + intros (n & acts & -> & N). eapply nth_error_In, NS, N.
    - intros n acts -> N. pose proof (NS n acts N) as N'. clear -AA N N'. revert N'. generalize (Z.of_nat n) as z. intros z N'. revert n N N'. induction AA as [|q0 acts0 qs actss H AA IH]; intros [|n] N N'; try discriminate N; cbn [nth_error] in *; [injection N as <-; injection N' as <-; exact H|]. eapply IH; eassumption.
  Qed.
End LeftActions.
