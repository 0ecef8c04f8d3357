(** C55: the actions of a state. *)
From Verif Require Import Base OrdMap GrammarModel GrammarProofs FirstModel FirstProofs FollowModel FollowSpec FollowProofs FollowProps LrItemModel LrItemProofs ClosureModel ClosureSpec ClosureProofs ClosureTermProofs ClosureProps MachineModel MachineProofs BuilderModel BuilderSpec BuilderProofs BuilderLookProofs BuilderTermProofs BuilderProps ActionModel ActionSpec ActionProofs.
Local Open Scope Z_scope.

(** The caches left behind by all the calls a program can make *)
Inductive any_calls rid first_of rules u busy : caching -> Prop :=
| any_closures c : earlier_calls rid first_of rules u busy c -> any_calls rid first_of rules u busy c
| any_parser languages fuel steps c m guards p c' : any_calls rid first_of rules u busy c -> (forall l, In l languages -> u l) ->
    complete_parser rid first_of rules busy fuel steps (fold_left (fun m l => fst (add_initial_state rid l m)) languages new_machine) [] c = Some (m, guards, p, c') -> any_calls rid first_of rules u busy c'
| any_actions fuel languages m guards q c acts c' : any_calls rid first_of rules u busy c -> (forall l, In l languages -> u l) -> built rid first_of rules u busy languages m guards ->
    plain_actions rid first_of rules busy fuel m guards q c = Some (acts, c') -> any_calls rid first_of rules u busy c'.

Section Built.
  Context (rid : rule -> Z) (first_of : item -> iset) (rules : Z -> list (list item)) (u : item -> Prop) (busy : nat -> list item -> item -> bool) (languages : list item) (m : machine) (guards : guard_states).
  Context (BU : buildable rid first_of rules u languages) (B : built rid first_of rules u busy languages m guards).

  Lemma built_items q s : state_with_id q m = Some s -> forall k, In k (st_list s) -> forall j, In j (after_dot k) -> u j.
  Proof.
    intros S k K j J. destruct (built_facts _ _ _ _ _ _ _ _ BU B) as (m0 & AU & _ & _ & KK & _). pose proof (with_id_kern m q s S) as KS. apply KK in KS. destruct (kern_with_id m0 q _ KS) as (s0 & _ & E & S0). eapply (gs_items _ _ _ _ (au_states _ _ _ _ _ AU s0 S0)); [|exact J]. rewrite E. exact K.
  Qed.
  Lemma built_state_ok q s : state_with_id q m = Some s -> state_ok rid s.
  Proof.
    intros S. destruct (built_facts _ _ _ _ _ _ _ _ BU B) as (m0 & _ & _ & OK & _). destruct (kern_with_id m q _ (with_id_kern m q s S)) as (s' & S' & _ & X). assert (s' = s) by congruence. subst s'. pose proof (mo_states _ _ OK) as F. rewrite Forall_forall in F. apply F, X.
  Qed.
  Lemma built_kernel_of q s : state_with_id q m = Some s -> kernel_of u (kernel_items s).
  Proof.
    intros S k la X. split; [eapply kernel_items_ok; [apply (built_state_ok q s S)|exact X]|]. intros j J. eapply built_items; [exact S| |exact J]. eapply in_combine_l, X.
  Qed.
  Lemma built_in_list q s : state_with_id q m = Some s -> forall k, in_list (kernel_items s) k <-> kernel m q k.
  Proof.
    intros S k. unfold in_list. rewrite (kernel_items_in rid) by apply (built_state_ok q s S). split; [intros X; exists s; auto|intros (s' & S' & X); congruence].
  Qed.
  Notation looks := (lalr_look rules first_of languages Z (kernel m) (step m)).
  Lemma built_looked q s : state_with_id q m = Some s -> forall k x, looked (kernel_items s) k x <-> kernel m q k /\ looks q k x.
  Proof.
    intros S k x. pose proof (built_state_ok q s S) as OK. split.
    - intros (la & X & Y). assert (N : exists n, nth_error (st_list s) n = Some k /\ nth_error (st_looks s) n = Some la).
      { clear -X. unfold kernel_items in X. revert X. generalize (st_looks s). induction (st_list s) as [|a l IH]; intros [|b lo] X; try destruct X; [injection H as -> ->; exists 0%nat; auto|]. destruct (IH _ H) as (n & A & C). exists (S n). auto. }
      destruct N as (n & N1 & N2). split; [exists s; split; [exact S|eapply nth_error_In, N1]|]. eapply C30_exact_partial; eassumption.
    - intros [(s' & S' & K) L]. assert (s' = s) by congruence. subst s'. apply In_nth_error in K. destruct K as [n N]. assert (exists la, nth_error (st_looks s) n = Some la) as [la N2].
      { destruct (nth_error (st_looks s) n) as [la|] eqn:E; [eauto|]. apply nth_error_None in E. pose proof (so_looks _ _ OK). assert (n < length (st_list s))%nat by (apply nth_error_Some; congruence). lia. }
      exists la. split; [|eapply C30_exact_partial; eassumption]. unfold kernel_items. clear -N N2. revert n N N2. generalize (st_looks s). induction (st_list s) as [|a l IH]; intros [|b lo] [|n] N N2; try discriminate; cbn in *; [left; congruence|right; eapply IH; eassumption].
  Qed.
  (** The lookaheads in the closure of a state *)
  Lemma looks_closed q k x : looks q k x -> closure_look rules first_of (kernel m q) (fun k x => kernel m q k /\ looks q k x) k x.
  Proof.
    intros L. induction L as [q l IL K|q p l K|q k y rest r x C A E Bg|q k y rest r x L IH A E S|q k y rest q' x L IH A T].
    - apply look_kernel. split; [exact K|apply lalr_language; assumption].
    - apply look_kernel. split; [exact K|apply lalr_guard; assumption].
    - eapply look_begins; eassumption.
    - eapply look_passed; eassumption.
    - apply look_kernel. split; [|eapply lalr_step; eassumption]. destruct (C54_transitions_partial _ _ _ _ _ _ _ _ BU B) as (TR & _). destruct (TR _ _ _ T) as (_ & _ & _ & G). apply G. exists k, rest. split; [|auto].
      clear -IH. induction IH as [k x [K _]|k y rest r x C A E Bg|k y rest r x L IH A E S]; [apply in_kernel, K|eapply in_step; eassumption|eapply in_step; eassumption].
  Qed.
  Lemma closed_looks q k x : closure_look rules first_of (kernel m q) (fun k x => kernel m q k /\ looks q k x) k x -> looks q k x.
  Proof. induction 1 as [k x [_ L]|k y rest r x C A E Bg|k y rest r x L IH A E S]; [exact L|eapply lalr_begins; eassumption|eapply lalr_passed; eassumption]. Qed.
  Lemma closure_look_ext K K' L L' : (forall k, K k <-> K' k) -> (forall k x, L k x <-> L' k x) -> forall k x, closure_look rules first_of K L k x -> closure_look rules first_of K' L' k x.
  Proof.
    intros KE LE k x H. induction H as [k x H|k y rest r x C A E Bg|k y rest r x H IH A E S]; [apply look_kernel, LE, H|eapply look_begins; [apply (closure_item_ext rules _ _ KE), C|eassumption..]|eapply look_passed; eassumption].
  Qed.
  (** The state of a guard *)
  Lemma guard_found p l n : mfind Z.ltb (rid (mkRule (IGuard p l) l)) guards = Some n <-> forall k, kernel m n k <-> k = guard_start p l.
  Proof.
    destruct (C54_guards_partial _ _ _ _ _ _ _ _ BU B) as (G1 & G2). destruct (C54_states_partial _ _ _ _ _ _ _ _ BU B) as (S1 & S2 & S3 & S4). split.
    - intros F. destruct (G2 _ _ F) as (p' & l' & E & _ & K). apply (bu_ids _ _ _ _ _ BU) in E. injection E as <- <-. exact K.
    - intros K. assert (IS : is_state m n) by (destruct (proj2 (K (guard_start p l)) eq_refl) as (s & S & _); unfold is_state; congruence).
      pose proof (S1 n IS) as LS. inversion LS as [l' IL E|from k p' l' rest R C A E|from x R NE [k G] E].
      + pose proof (proj2 (E (language_start l')) eq_refl) as X. apply K in X. discriminate X.
      + pose proof (proj2 (E (guard_start p' l')) eq_refl) as X. apply K in X. assert (p' = p) by (unfold guard_start in X; congruence). assert (l' = l) by (unfold guard_start in X; congruence). subst p' l'. destruct (S2 from R) as (q & IQ & EQ). assert (C' : closure_item rules (kernel m q) k) by (apply (closure_item_ext rules _ _ EQ), C).
        destruct (mfind Z.ltb (rid (mkRule (IGuard p l) l)) guards) as [n'|] eqn:F; [|destruct (G1 q k p l rest IQ C' A F)]. f_equal. destruct (G2 _ _ F) as (p2 & l2 & E2 & IS2 & K2). apply (bu_ids _ _ _ _ _ BU) in E2. injection E2 as <- <-. apply (S3 n' n IS2 IS). intros k0. rewrite K2, K. reflexivity.
      + pose proof (proj2 (E k) G) as X. apply K in X. destruct G as (k1 & rest & _ & _ & ->). discriminate X.
  Qed.
  Lemma check_of_spec i a : check_of rid first_of guards i a <-> exists p l n t, i = IGuard p l /\ (forall k, kernel m n k <-> k = guard_start p l) /\ can_start first_of l (ITerm t) /\ a = mkAction Guard (ITerm t) n (mkRule (IGuard p l) l).
  Proof. unfold check_of. split; intros (p & l & n & t & E & F & C & A); exists p, l, n, t; (split; [exact E|]; split; [apply guard_found, F|auto]). Qed.

  Lemma plain_exact fuel q c acts c' : cache_ok rid first_of rules u (fst c) -> plain_actions rid first_of rules busy fuel m guards q c = Some (acts, c') ->
    cache_ok rid first_of rules u (fst c') /\ ssorted action_ltb acts /\ forall a, In a acts <-> lalr_action rules first_of languages (kernel m) (step m) q a.
  Proof.
    intros EC H. unfold plain_actions in H. destruct (state_with_id q m) as [s|] eqn:S; [|discriminate H]. destruct (generate_closure rid first_of rules busy fuel fuel (kernel_items s) c) as [[cl c1]|] eqn:GC; [|discriminate H].
    destruct (transition_guards rid first_of fuel guards (transitions_for_state q m) []) as [a1|] eqn:TG; [|discriminate H]. destruct (add_reductions rid first_of fuel guards cl (add_moves (transitions_for_state q m) a1)) as [a2|] eqn:AR; [|discriminate H]. injection H as <- <-.
    pose proof (built_kernel_of q s S) as KO. destruct BU as [RI FO UO GU LU]. apply (generate_closure_exact rid RI first_of FO rules u UO busy (kernel_items s) (fun k la X => proj1 (KO k la X)) (fun k la X => proj2 (KO k la X))) in GC; [|exact EC]. destruct GC as (EC' & OK & CI0 & CL0). split; [exact EC'|].
    assert (CI : forall k, (exists la, In (k, la) cl) <-> closure_item rules (in_list (kernel_items s)) k) by (intros k; rewrite (entry_iff rid RI) by exact OK; apply CI0).
    assert (CL : forall k la, In (k, la) cl -> forall x, In x la <-> closure_look rules first_of (in_list (kernel_items s)) (looked (kernel_items s)) k x) by (intros k la X x; rewrite <- (CL0 k x), (look_of_entry rid RI _ _ _ OK X); reflexivity).
    apply (transition_guards_in rid first_of) in TG. apply (add_reductions_in rid first_of) in AR. destruct TG as [T1 T2], AR as [R1 R2]. split; [apply R1, add_moves_sorted, T1; constructor|].
    assert (CE : forall k x, closure_item rules (kernel m q) k /\ looks q k x <-> exists la, In (k, la) cl /\ In x la).
    { intros k x. split.
      - intros [C L]. apply (closure_item_ext rules _ _ (built_in_list q s S)) in C. apply CI in C. destruct C as [la X]. exists la. split; [exact X|]. apply (CL k la X). apply looks_closed in L. eapply closure_look_ext; [| |exact L]; intros; [symmetry; apply built_in_list, S|symmetry; apply built_looked, S].
      - intros (la & X & Y). split; [apply (closure_item_ext rules _ _ (built_in_list q s S)), CI; eauto|]. apply (CL k la X) in Y. apply closed_looks. eapply closure_look_ext; [| |exact Y]; intros; [apply built_in_list, S|apply built_looked, S]. }
    assert (CO : forall k x, complete_on rules first_of languages (kernel m) (step m) q k x <-> exists la, In (k, la) cl /\ after_dot k = [] /\ In x la).
    { intros k x. unfold complete_on. split; [intros (C & A & L); destruct (proj1 (CE k x) (conj C L)) as (la & X & Y); eauto|]. intros (la & X & A & Y). destruct (proj2 (CE k x) (ex_intro _ la (conj X Y))). auto. }
    intros a. rewrite R2, add_moves_in, T2. cbn [In]. split.
    - intros [[[[]|(i & t & X & C)]|(i & t & X & ->)]|(k & la & x & X & A & Y & C)].
      + apply check_of_spec in C. destruct C as (p & l & n & t' & -> & K & CS & ->). apply action_guard; [left; exists t; exact X|exact K|exact CS].
      + destruct (move_type_spec i) as [[M ->]|[[M1 M2] ->]]; [apply action_shift; assumption|apply action_goto; assumption].
      + destruct C as [C|[R ->]].
        * apply check_of_spec in C. destruct C as (p & l & n & t' & -> & K & CS & ->). apply action_guard; [right; exists k; apply CO; eauto|exact K|exact CS].
        * apply reduces_on_spec in R. destruct (reduce_type_spec (l_rule k)) as [[T ->]|[T ->]]; [apply action_accept|apply action_reduce]; try assumption; apply CO; eauto.
    - intros L. inversion L as [x t X M|x t X M1 M2|k x C I T|k x C I T|p l n s0 W K CS]; subst a.
      + left. right. exists x, t. split; [exact X|]. destruct (move_type_spec x) as [[_ ->]|[[M1 M2] _]]; [reflexivity|]. destruct M as [[s0 ->]|(p & l & ->)]; [destruct (M1 s0 eq_refl)|destruct (M2 p l eq_refl)].
      + left. right. exists x, t. split; [exact X|]. destruct (move_type_spec x) as [[M _]|[_ ->]]; [|reflexivity]. destruct M as [[s0 ->]|(p & l & ->)]; [destruct (M1 s0 eq_refl)|destruct (M2 p l eq_refl)].
      + apply CO in C. destruct C as (la & X & A & Y). right. exists k, la, x. split; [exact X|]. split; [exact A|]. split; [exact Y|]. right. split; [apply reduces_on_spec, I|]. destruct (reduce_type_spec (l_rule k)) as [[T' _]|[_ ->]]; [contradiction|reflexivity].
      + apply CO in C. destruct C as (la & X & A & Y). right. exists k, la, x. split; [exact X|]. split; [exact A|]. split; [exact Y|]. right. split; [apply reduces_on_spec, I|]. destruct (reduce_type_spec (l_rule k)) as [[_ ->]|[T' _]]; [reflexivity|contradiction].
      + assert (C : check_of rid first_of guards (IGuard p l) (mkAction Guard (ITerm s0) n (mkRule (IGuard p l) l))) by (apply check_of_spec; exists p, l, n, s0; auto). destruct W as [[t X]|[k CK]]; [left; left; right; eauto|]. apply CO in CK. destruct CK as (la & X & A & Y). right. exists k, la, (IGuard p l). auto.
  Qed.
End Built.

(** The lookaheads of the rules for a whole language or guard *)
Lemma top_look rules first_of languages (K : Z -> lr0 -> Prop) st q k x : lalr_look rules first_of languages Z K st q k x -> top_rule (l_rule k) ->
  (x = IEoi /\ exists l, In l languages /\ l_rule k = mkRule IEmpty [l]) \/ (x = IEog /\ exists p l, l_rule k = mkRule (IGuard p l) l).
Proof.
  intros L. assert (NE : forall y r, expands rules y r -> ~ top_rule (mkRule y r)) by (clear; intros y r E [T|(p & l & T)]; cbn in T; subst y; inversion E).
  induction L as [q l IL K0|q p l K0|q k y rest r x C A E Bg|q k y rest r x L IH A E S|q k y rest q' x L IH A T]; intros TR.
  - left. split; [reflexivity|]. exists l. auto.
  - right. split; [reflexivity|]. exists p, l. reflexivity.
  - destruct (NE _ _ E TR).
  - destruct (NE _ _ E TR).
  - apply IH, TR.
Qed.
Lemma initial_ends first_of us : (forall i p l, In i us -> In (IGuard p l) (first_of i) -> In (IGuard p l) us) -> guards_in (fun i => In i us) -> forall rank,
  (forall p l p' l', In (IGuard p l) us -> begins first_of l (IGuard p' l') -> (rank (IGuard p' l') < rank (IGuard p l))%nat) ->
  forall fuel i, In i us -> (rank i < fuel)%nat -> match i with IGuard _ _ => True | _ => False end -> initial first_of fuel i <> None.
Proof.
  intros FU GU rank RK. induction fuel as [|fuel IH]; intros i I R G; [lia|]. destruct i as [| | | | |p l|]; try destruct G. cbn [initial guard_items]. generalize (rule_first first_of l) at 2.
  assert (GS : forall g, In g (rev (filter is_guard (rule_first first_of l))) -> initial first_of fuel g <> None).
  { intros g X. apply in_rev, filter_In in X. destruct X as [X IG]. destruct g as [| | | | |p' l'|]; try discriminate IG. apply (rule_first_in first_of) in X; [|discriminate]. pose proof (RK p l p' l' I X). apply IH; [|lia|exact Logic.I]. destruct X as (a & y & b & -> & _ & Y & _). eapply FU; [|exact Y]. apply (GU p (a ++ y :: b) I). apply in_app_iff. right. left. reflexivity. }
  revert GS. generalize (rev (filter is_guard (rule_first first_of l))). intros gs. induction gs as [|g gs IHg]; intros GS res; cbn [merge_all]; [discriminate|]. destruct (initial first_of fuel g) eqn:E; [|destruct (GS g (or_introl eq_refl) E)]. apply IHg. intros g' X. apply GS. right. exact X.
Qed.
Lemma transition_guards_ends rid first_of fuel guards ts : (forall i t, In (i, t) ts -> forall s, add_guard rid first_of fuel guards i s <> None) -> forall s, transition_guards rid first_of fuel guards ts s <> None.
Proof.
  induction ts as [|[i t] ts IH]; intros H s; cbn [transition_guards]; [discriminate|]. destruct (add_guard rid first_of fuel guards i s) as [s1|] eqn:E; [|destruct (H i t (or_introl eq_refl) s E)]. apply IH. intros i' t' X. apply (H i' t'). right. exact X.
Qed.
Lemma add_reductions_ends rid first_of fuel guards cl : (forall k la x, In (k, la) cl -> In x la -> forall s, add_guard rid first_of fuel guards x s <> None) -> forall s, add_reductions rid first_of fuel guards cl s <> None.
Proof.
  induction cl as [|[k la] cl IH]; intros H s; cbn [add_reductions]; [discriminate|]. assert (IH' := IH (fun k' la' x X => H k' la' x (or_intror X))). destruct (at_end k); [|apply IH'].
  assert (R : forall s, add_reduces rid first_of fuel guards (l_rule k) la s <> None).
  { specialize (fun x => H k la x (or_introl eq_refl)). clear IH IH'. induction la as [|x la IH]; intros s0; cbn [add_reduces]; [discriminate|]. assert (IH' := IH (fun y Y => H y (or_intror Y))). destruct (reduces_on x); [|apply IH']. destruct (add_guard rid first_of fuel guards x s0) eqn:E; [apply IH'|destruct (H x (or_introl eq_refl) s0 E)]. }
  destruct (add_reduces rid first_of fuel guards (l_rule k) la s) eqn:E; [apply IH'|destruct (R s E)].
Qed.
Lemma closure_u_items rules first_of u : ordinary rules first_of u -> forall K : lr0 -> Prop, (forall k, K k -> forall j, In j (after_dot k) -> u j) -> forall k, closure_item rules K k -> forall j, In j (after_dot k) -> u j.
Proof.
  intros UO K KU k C. induction C as [k X|k y rest r C IH A E]; [apply KU, X|]. intros j J. cbn in J. apply (UO y) with (r := r); [apply IH; rewrite A; left; reflexivity|exact E|exact J].
Qed.
Section Guards.
  Context (rid : rule -> Z) (first_of : item -> iset) (rules : Z -> list (list item)) (u : item -> Prop) (busy : nat -> list item -> item -> bool) (languages : list item) (m : machine) (guards : guard_states).
  Context (BU : buildable rid first_of rules u languages) (B : built rid first_of rules u busy languages m guards).
  Lemma goto_some q x t : step m q x t -> exists k rest, closure_item rules (kernel m q) k /\ after_dot k = x :: rest.
  Proof.
    intros T. destruct (built_facts _ _ _ _ _ _ _ _ BU B) as (m0 & AU & EX & OK & KK & TT & _). pose proof T as T0. apply (step_trans rid) in T0; [|exact OK]. unfold trans in T0. rewrite TT in T0. apply (au_trans _ _ _ _ _ AU) in T0. destruct T0 as (l & l' & K & K' & _ & [k X] & _).
    destruct (C54_transitions_partial _ _ _ _ _ _ _ _ BU B) as (TR & _). destruct (TR _ _ _ T) as (_ & _ & _ & G). assert (KM : kernel m t k). { apply KK in K'. destruct (kern_with_id m t l' K') as (s & S & <- & _). exists s. auto. }
    apply G in KM. destruct KM as (k1 & rest & C & A & _). eauto.
  Qed.
  Lemma built_closure_u q k : closure_item rules (kernel m q) k -> forall j, In j (after_dot k) -> u j.
  Proof. apply (closure_u_items rules first_of u (bu_ordinary _ _ _ _ _ BU)). intros k0 (s & S & X). eapply (built_items _ _ _ _ _ _ _ _ BU B q s S), X. Qed.
  Lemma look_guard_u : (forall i p l, u i -> In (IGuard p l) (first_of i) -> u (IGuard p l)) -> forall q k p l, lalr_look rules first_of languages Z (kernel m) (step m) q k (IGuard p l) -> u (IGuard p l).
  Proof.
    intros FU q k p l L. remember (IGuard p l) as x eqn:EX. induction L as [q l0 IL K|q p0 l0 K|q k y rest r x C A E (a & z & b & -> & _ & X & _)|q k y rest r x L IH A E S|q k y rest q' x L IH A T]; try discriminate EX; auto.
    subst x. eapply FU; [|exact X]. eapply built_closure_u; [exact C|]. rewrite A. right. apply in_app_iff. right. left. reflexivity.
  Qed.
End Guards.
Lemma any_calls_ok rid first_of rules u busy c : injective rid -> (forall i, set_ok (first_of i)) -> ordinary rules first_of u -> guards_in u -> any_calls rid first_of rules u busy c -> cache_ok rid first_of rules u (fst c).
Proof.
  intros RI FO UO GU A. induction A as [c E|languages fuel steps c m guards p c' A IH LU H|fuel languages m guards q c acts c' A IH LU B H].
  - apply (earlier_calls_ok _ _ _ _ _ _ RI FO UO E).
  - unfold complete_parser in H. change (fold_left (fun m l => fst (add_initial_state rid l m)) languages new_machine) with (start_machine rid languages) in H.
    destruct (complete_states rid first_of rules busy fuel steps (start_machine rid languages) [] c) as [[[m0 g] c1]|] eqn:CS; [|discriminate H]. apply (complete_states_exact rid RI first_of FO rules u UO GU busy languages LU) in CS; [|exact IH]. destruct CS as (AU & CO1 & _).
    destruct (complete_lookaheads rid first_of rules busy fuel steps m0 c1) as [[[m' p'] c'']|] eqn:CL; [|discriminate H]. injection H as <- <- <- <-. apply (lookaheads_exact rid RI first_of FO rules u UO busy languages m0 AU) in CL; [|exact CO1]. apply CL.
  - eapply (plain_exact rid first_of rules u busy languages m guards); [split; assumption|exact B|exact IH|exact H].
Qed.

(** The actions of a state are exactly those of the LALR(1) parser, each one once.  This holds whatever
    has been cached before.  Missing: as in C54 and C30, grammars whose rules contain the empty item or the
    end of input; the FIRST sets are taken as they are (C25). *)
Theorem C55_exact_partial : forall rid first_of rules u busy languages m guards fuel q c acts c', buildable rid first_of rules u languages -> built rid first_of rules u busy languages m guards -> any_calls rid first_of rules u busy c ->
  plain_actions rid first_of rules busy fuel m guards q c = Some (acts, c') ->
  NoDup acts /\ forall a, In a acts <-> lalr_action rules first_of languages (kernel m) (step m) q a.
Proof.
  intros rid first_of rules u busy languages m guards fuel q c acts c' BU B A H. apply (any_calls_ok _ _ _ _ _ _ (bu_ids _ _ _ _ _ BU) (bu_first _ _ _ _ _ BU) (bu_ordinary _ _ _ _ _ BU) (bu_guards _ _ _ _ _ BU)) in A. destruct (plain_exact _ _ _ _ _ _ _ _ BU B _ _ _ _ _ A H) as (_ & S & E). split; [apply (sorted_nodup _ action_strict), S|exact E].
Qed.
Print Assumptions C55_exact_partial.
(** The action order is a strict total order, so the set of actions is well defined. *)
Theorem C55_order : strict_total action_ltb.
Proof. exact action_strict. Qed.
Print Assumptions C55_order.
(** Input is accepted at its end only, for one of the languages; the rule of a guard is accepted only
    where the guard ends. *)
Theorem C55_accept_partial : forall rid first_of rules u busy languages m guards fuel q c acts c' a, buildable rid first_of rules u languages -> built rid first_of rules u busy languages m guards -> any_calls rid first_of rules u busy c ->
  plain_actions rid first_of rules busy fuel m guards q c = Some (acts, c') -> In a acts -> a_type a = Accept ->
  (a_item a = IEoi /\ exists l, In l languages /\ a_rule a = mkRule IEmpty [l]) \/ (a_item a = IEog /\ exists p l, a_rule a = mkRule (IGuard p l) l).
Proof.
  intros rid first_of rules u busy languages m guards fuel q c acts c' a BU B A H I T. destruct (C55_exact_partial _ _ _ _ _ _ _ _ _ _ _ _ _ BU B A H) as [_ E]. apply E in I. destruct I as [| | |k x (_ & _ & L) _ TR|]; try discriminate T. cbn [a_item a_rule]. exact (top_look _ _ _ _ _ _ _ _ L TR).
Qed.
Print Assumptions C55_accept_partial.
Lemma plain_ends : forall rid first_of rules us busy width languages m guards rank q, buildable rid first_of rules (fun i => In i us) languages -> built rid first_of rules (fun i => In i us) busy languages m guards ->
  (forall n stack i, (width <= count_occ item_dec stack i)%nat -> busy n stack i = true) ->
  (forall i p l, In i us -> In (IGuard p l) (first_of i) -> In (IGuard p l) us) ->
  (forall p l p' l', In (IGuard p l) us -> begins first_of l (IGuard p' l') -> (rank (IGuard p' l') < rank (IGuard p l))%nat) ->
  is_state m q ->
  exists fuel0, forall fuel c, (fuel0 <= fuel)%nat -> cache_ok rid first_of rules (fun i => In i us) (fst c) -> plain_actions rid first_of rules busy fuel m guards q c <> None.
Proof.
  intros rid first_of rules us busy width languages m guards rank q BU B BB FU RK IS. unfold is_state in IS. destruct (state_with_id q m) as [s|] eqn:SW; [|contradiction].
  set (la0 := concat (st_looks s)). pose proof BU as [RI FO UO GU LU]. exists (enough_fuel first_of rules us la0 width + S (length (kernel_items s) + length (entries first_of rules us la0)) + S (list_max (map rank us)))%nat. intros fuel c F CO. pose proof (built_kernel_of _ _ _ _ _ _ _ _ BU B q s SW) as KO.
  assert (GI : forall i, (forall p l, i = IGuard p l -> In (IGuard p l) us) -> forall s, add_guard rid first_of fuel guards i s <> None).
  { intros i I s0. unfold add_guard. destruct (guard_rule i) as [r|] eqn:G; [|discriminate]. destruct i as [| | | | |p l|]; try discriminate G. specialize (I p l eq_refl). destruct (mfind _ _ _) as [n|]; [|discriminate]. pose proof (initial_ends first_of us FU GU rank RK fuel (IGuard p l) I) as IE.
    destruct (initial first_of fuel (IGuard p l)); [discriminate|]. exfalso. apply IE; [|exact Logic.I|reflexivity]. pose proof (proj1 (list_max_le (map rank us) _) (Nat.le_refl _)) as LM. rewrite Forall_forall in LM. specialize (LM _ (in_map rank _ _ I)). lia. }
  destruct (plain_actions rid first_of rules busy fuel m guards q c) as [r|] eqn:H; [discriminate|]. exfalso. unfold plain_actions in H. rewrite SW in H.
  destruct (generate_closure rid first_of rules busy fuel fuel (kernel_items s) c) as [[cl c1]|] eqn:GC.
  2: { revert GC. eapply (generate_closure_ends rid RI first_of FO rules us la0 UO busy width BB); [|exact CO|lia|unfold lr1 in *; lia]. intros k la X. split; [apply (KO k la X)|]. split; [apply (KO k la X)|]. intros x Hx. right. apply in_app_iff. left. apply in_concat. exists la. split; [eapply in_combine_r, X|exact Hx]. }
  apply (generate_closure_exact rid RI first_of FO rules _ UO busy (kernel_items s) (fun k la X => proj1 (KO k la X)) (fun k la X => proj2 (KO k la X))) in GC; [|exact CO]. destruct GC as (_ & OK & CI & CL).
  destruct (transition_guards rid first_of fuel guards (transitions_for_state q m) []) as [a1|] eqn:TG.
  2: { revert TG. apply (transition_guards_ends rid first_of). intros i t X s0. apply GI. intros p l ->. destruct (C54_transitions_partial _ _ _ _ _ _ _ _ BU B) as (TR & _). destruct (TR _ _ _ X) as (_ & T & _ & G). destruct (goto_some _ _ _ _ _ _ _ _ BU B q (IGuard p l) t X) as (k & rest & C & AD).
       apply (closure_item_ext rules _ _ (fun k => iff_sym (built_in_list _ _ _ _ _ _ _ _ BU B q s SW k))) in C. eapply (closure_u_items rules first_of _ UO (in_list (kernel_items s))); [|exact C|rewrite AD; left; reflexivity]. intros k0 [la X0] j J. eapply KO; eassumption. }
  destruct (add_reductions rid first_of fuel guards cl (add_moves (transitions_for_state q m) a1)) as [a2|] eqn:AR; [discriminate H|]. revert AR. apply (add_reductions_ends rid first_of). intros k la x X Hx s0. apply GI. intros p l ->.
  assert (L : closure_look rules first_of (in_list (kernel_items s)) (looked (kernel_items s)) k (IGuard p l)) by (apply (CL k); rewrite (look_of_entry rid RI _ _ _ OK X); exact Hx).
  apply (closure_look_ext first_of rules _ (kernel m q) _ (fun k x => kernel m q k /\ lalr_look rules first_of languages Z (kernel m) (step m) q k x)) in L; [|apply (built_in_list _ _ _ _ _ _ _ _ BU B q s SW)|apply (built_looked _ _ _ _ _ _ _ _ BU B q s SW)]. apply closed_looks in L.
  eapply (look_guard_u _ _ _ _ _ _ _ _ BU B FU); exact L.
Qed.
(** The actions can be computed for every state of a grammar with finitely many items in which no
    guard starts with itself. *)
Theorem C55_ends_partial : forall rid first_of rules us busy width languages m guards rank q, buildable rid first_of rules (fun i => In i us) languages -> built rid first_of rules (fun i => In i us) busy languages m guards ->
  (forall n stack i, (width <= count_occ item_dec stack i)%nat -> busy n stack i = true) ->
  (forall i p l, In i us -> In (IGuard p l) (first_of i) -> In (IGuard p l) us) ->
  (forall p l p' l', In (IGuard p l) us -> begins first_of l (IGuard p' l') -> (rank (IGuard p' l') < rank (IGuard p l))%nat) ->
  is_state m q ->
  exists fuel0, forall fuel c, (fuel0 <= fuel)%nat -> any_calls rid first_of rules (fun i => In i us) busy c -> plain_actions rid first_of rules busy fuel m guards q c <> None.
Proof.
  intros rid first_of rules us busy width languages m guards rank q BU B BB FU RK IS. destruct (plain_ends _ _ _ _ _ _ _ _ _ _ _ BU B BB FU RK IS) as (fuel0 & E). exists fuel0. intros fuel c F A. apply E; [exact F|]. exact (any_calls_ok _ _ _ _ _ _ (bu_ids _ _ _ _ _ BU) (bu_first _ _ _ _ _ BU) (bu_ordinary _ _ _ _ _ BU) (bu_guards _ _ _ _ _ BU) A).
Qed.
Print Assumptions C55_ends_partial.
(** A guard that starts with itself: the computation of its first symbols does not end (in the
    program, the stack overflows).  0 -> [=> 0] t4 *)
Definition rules_endless (n : Z) : list (list item) := if n =? 0 then [[IGuard 0 [INonterm 0]; ITerm 4]] else [].
Theorem C55_endless_guard_refuted : exists rules m guards busy, built rule_number (first_by rules 9) rules (fun i => In i [INonterm 0; IGuard 0 [INonterm 0]; ITerm 4]) busy [INonterm 0] m guards /\ is_state m 0 /\
  forall fuel c, plain_actions rule_number (first_by rules 9) rules busy fuel m guards 0 c = None.
Proof.
  exists rules_endless. eexists. eexists. exists one_object. split; [exists 30%nat, 60%nat, ([], 0%nat); eexists; eexists; split; [constructor; constructor|vm_compute; reflexivity]|]. split; [discriminate|].
  assert (I : forall fuel, initial (first_by rules_endless 9) fuel (IGuard 0 [INonterm 0]) = None).
  { induction fuel as [|fuel IH]; [reflexivity|]. cbn [initial guard_items]. assert (E : rule_first (first_by rules_endless 9) [INonterm 0] = [INonterm 0; IGuard 0 [INonterm 0]]) by reflexivity. rewrite E. cbn [filter is_guard rev app merge_all]. rewrite IH. reflexivity. }
  intros fuel c. unfold plain_actions. cbn [state_with_id]. set (st := state_with_id 0 _). vm_compute in st. subst st. cbv beta iota. destruct (generate_closure _ _ _ _ _ _ _ _) as [[cl c1]|]; [|reflexivity]. set (ts := transitions_for_state 0 _). vm_compute in ts. subst ts. cbn [transition_guards add_guard guard_rule]. set (f := mfind Z.ltb _ _). vm_compute in f. subst f. cbv beta iota. rewrite I. reflexivity.
Qed.
Print Assumptions C55_endless_guard_refuted.

Example C55_nontrivial : exists m guards acts c', built rule_number (first_by (rules_of nts_guard) 9) (rules_of nts_guard) (fun i => In i items_guard) one_object [INonterm 0] m guards /\
  plain_actions rule_number (first_by (rules_of nts_guard) 9) (rules_of nts_guard) one_object 30 m guards 6 ([], 0%nat) = Some (acts, c') /\
  acts = [mkAction Reduce IEoi (-1) (mkRule (INonterm 1) [ITerm 4]); mkAction Guard (ITerm 4) 1 (mkRule (IGuard 0 [ITerm 4]) [ITerm 4]); mkAction Shift (ITerm 5) 2 no_rule;
          mkAction Reduce (ITerm 6) (-1) (mkRule (INonterm 1) [ITerm 4]); mkAction Goto (INonterm 0) 8 no_rule; mkAction Shift (IGuard 0 [ITerm 4]) 4 no_rule].
Proof.
  eexists. eexists. eexists. eexists. split; [exists 30%nat, 60%nat, ([], 0%nat); eexists; eexists; split; [constructor|vm_compute; reflexivity]|]. split; vm_compute; reflexivity.
Qed.
