(** C54 and C30: the states of an LALR parser and their lookaheads. *)
From Verif Require Import Base OrdMap GrammarModel GrammarProofs FirstModel FirstProofs FollowModel FollowSpec FollowProofs FollowProps LrItemModel LrItemProofs ClosureModel ClosureSpec ClosureProofs ClosureTermProofs ClosureProps MachineModel MachineProofs BuilderModel BuilderSpec BuilderProofs BuilderLookProofs BuilderTermProofs.
Local Open Scope Z_scope.

(** A grammar with the items [u], and the languages that a parser is wanted for.  The empty item and
    the end of input do not occur in its rules. *)
Record buildable (rid : rule -> Z) (first_of : item -> iset) (rules : Z -> list (list item)) (u : item -> Prop) (languages : list item) : Prop := {
  bu_ids : injective rid;
  bu_first : forall i, set_ok (first_of i);
  bu_ordinary : ordinary rules first_of u;
  bu_guards : guards_in u;
  bu_languages : forall l, In l languages -> u l }.
(** A parser built from nothing: a call of add_initial_state for each language, then complete_parser,
    with whatever closures have been cached before *)
Definition built rid first_of rules u busy languages (m : machine) (guards : guard_states) : Prop :=
  exists fuel steps c p c', earlier_calls rid first_of rules u busy c /\
  complete_parser rid first_of rules busy fuel steps (fold_left (fun m l => fst (add_initial_state rid l m)) languages new_machine) [] c = Some (m, guards, p, c').
(** The kernel of a state, and the transitions of a machine *)
Definition kernel (m : machine) (q : Z) (k : lr0) : Prop := exists s, state_with_id q m = Some s /\ In k (st_list s).
Definition is_state (m : machine) (q : Z) : Prop := state_with_id q m <> None.
Definition step (m : machine) (q : Z) (x : item) (t : Z) : Prop := In (x, t) (transitions_for_state q m).

Lemma state_kern m q s : state_with_id q m = Some s -> forall l, kern m q l <-> l = st_list s.
Proof. intros S l. pose proof (with_id_kern m q s S) as K. split; [intros K'; eapply kern_fun; eassumption|intros ->; exact K]. Qed.
Lemma step_trans rid m q x t : machine_ok rid m -> step m q x t <-> trans m q x = Some t.
Proof.
  intros OK. unfold step, trans. symmetry. apply (mfind_in _ item_strict). unfold transitions_for_state. destruct (Z.ltb_spec q 0) as [N|N]; cbn [orb]; [constructor|]. destruct (Z.leb_spec (Z.of_nat (length (m_trans m))) q) as [L|L]; [constructor|]. pose proof (mo_sorted_trans _ _ OK) as F. rewrite Forall_forall in F. apply F, nth_In. lia.
Qed.
Lemma built_facts rid first_of rules u busy languages m guards : buildable rid first_of rules u languages -> built rid first_of rules u busy languages m guards ->
  exists m0, automaton rid rules u languages m0 /\ extends (start_machine rid languages) m0 /\ machine_ok rid m /\ (forall q l, kern m q l <-> kern m0 q l) /\ (forall q, transitions_for_state q m = transitions_for_state q m0) /\
  (forall z n, mfind Z.ltb z guards = Some n -> exists p l, z = rid (mkRule (IGuard p l) l) /\ kern m0 n [guard_start p l]) /\
  (forall q l k p g rest, kern m0 q l -> closure_item rules (fun k => In k l) k -> after_dot k = IGuard p g :: rest -> exists n, mfind Z.ltb (rid (mkRule (IGuard p g) g)) guards = Some n /\ kern m0 n [guard_start p g]) /\
  (forall t k x, item_at m0 t k -> In x (looks_at m t) <-> lalr_look rules first_of languages Z (kernel_in m0) (steps_to m0) (fst t) k x).
Proof.
  intros [RI FO UO GU LU] (fuel & steps & c & p & c' & E & H). apply (earlier_calls_ok _ _ _ _ _ _ RI FO UO) in E. unfold complete_parser in H. change (fold_left (fun m l => fst (add_initial_state rid l m)) languages new_machine) with (start_machine rid languages) in H.
  destruct (complete_states rid first_of rules busy fuel steps (start_machine rid languages) [] c) as [[[m0 g] c1]|] eqn:CS; [|discriminate H]. apply (complete_states_exact rid RI first_of FO rules u UO GU busy languages LU) in CS; [|exact E]. destruct CS as (AU & CO1 & EX & G1 & G2).
  destruct (complete_lookaheads rid first_of rules busy fuel steps m0 c1) as [[[m' p'] c'']|] eqn:CL; [|discriminate H]. injection H as <- <- <- <-. apply (lookaheads_exact rid RI first_of FO rules u UO busy languages m0 AU) in CL; [|exact CO1]. destruct CL as (_ & OK & K & T & L).
  exists m0. split; [exact AU|]. split; [exact EX|]. split; [exact OK|]. split; [exact K|]. split; [exact T|]. split; [exact G1|]. split; [exact G2|exact L].
Qed.

(** The states are exactly those of the canonical collection of LR(0) items, each one made once. *)
Theorem C54_states_partial : forall rid first_of rules u busy languages m guards, buildable rid first_of rules u languages -> built rid first_of rules u busy languages m guards ->
  (forall q, is_state m q -> lr0_state rules languages (kernel m q)) /\
  (forall K, lr0_state rules languages K -> exists q, is_state m q /\ forall k, K k <-> kernel m q k) /\
  (forall q q', is_state m q -> is_state m q' -> (forall k, kernel m q k <-> kernel m q' k) -> q = q') /\
  (forall q, is_state m q <-> 0 <= q < count_states m).
Proof.
  intros rid first_of rules u busy languages m guards BU B. destruct (built_facts _ _ _ _ _ _ _ _ BU B) as (m0 & AU & EX & OK & KK & TT & _).
  assert (KN : forall q l, kern m q l -> is_state m q /\ forall k, kernel m q k <-> In k l).
  { intros q l K. destruct (kern_with_id m q l K) as (s & S & <- & _). unfold is_state, kernel. rewrite S. split; [discriminate|]. intros k. split; [intros (s' & E & X); injection E as <-; exact X|intros X; exists s; auto]. }
  assert (SK : forall q, is_state m q -> exists l, kern m q l) by (intros q S; unfold is_state in S; destruct (state_with_id q m) as [s|] eqn:E; [|contradiction]; exists (st_list s); apply with_id_kern, E).
  split; [|split; [|split]].
  - intros q S. destruct (SK q S) as [l K]. destruct (KN q l K) as [_ KL]. apply KK in K. apply (au_sound _ _ _ _ _ AU) in K.
    assert (X : forall A B : lr0 -> Prop, (forall k, A k <-> B k) -> lr0_state rules languages A -> lr0_state rules languages B).
    { clear. intros A B E H. destruct H as [l L EA|from k p l rest R C D EA|from x R NE G EA]; [eapply state_language; [exact L|]|eapply state_guard; [exact R|exact C|exact D|]|eapply state_goto; [exact R|exact NE|exact G|]]; intros k0; rewrite <- E; apply EA. }
    eapply X; [|exact K]. intros k. symmetry. apply KL.
  - intros K S. destruct (au_complete _ _ _ _ _ AU K S) as (q & l & KQ & E). apply KK in KQ. destruct (KN q l KQ) as [IS KL]. exists q. split; [exact IS|]. intros k. rewrite E, KL. reflexivity.
  - intros q q' S S' E. destruct (SK q S) as [l K], (SK q' S') as [l' K']. destruct (KN _ _ K) as [_ KL], (KN _ _ K') as [_ KL']. apply KK in K, K'. eapply (au_unique _ _ _ _ _ AU); [exact K|exact K'|]. intros k. rewrite <- KL, <- KL'. apply E.
  - intros q. rewrite <- kern_range. split; [apply SK|intros [l K]; apply (KN q l K)].
Qed.
Print Assumptions C54_states_partial.
(** From each state there is exactly one transition for each symbol that can come next in it (the
    empty item is none), and it leads to the state with the items reached over that symbol. *)
Theorem C54_transitions_partial : forall rid first_of rules u busy languages m guards, buildable rid first_of rules u languages -> built rid first_of rules u busy languages m guards ->
  (forall q x t, step m q x t -> is_state m q /\ is_state m t /\ x <> IEmpty /\ forall k, kernel m t k <-> goto rules (kernel m q) x k) /\
  (forall q x, is_state m q -> x <> IEmpty -> (exists k, goto rules (kernel m q) x k) -> exists t, step m q x t) /\
  (forall q x t t', step m q x t -> step m q x t' -> t = t').
Proof.
  intros rid first_of rules u busy languages m guards BU B. destruct (built_facts _ _ _ _ _ _ _ _ BU B) as (m0 & AU & EX & OK & KK & TT & _). destruct (C54_states_partial _ _ _ _ _ _ _ _ BU B) as (S1 & S2 & S3 & S4).
  assert (ST : forall q x t, step m q x t <-> trans m0 q x = Some t) by (intros q x t; rewrite (step_trans rid) by exact OK; unfold trans; rewrite TT; reflexivity).
  assert (KN : forall q l, kern m0 q l -> is_state m q /\ forall k, kernel m q k <-> In k l).
  { intros q l K. apply KK in K. destruct (kern_with_id m q l K) as (s & S & <- & _). unfold is_state, kernel. rewrite S. split; [discriminate|]. intros k. split; [intros (s' & E & X); injection E as <-; exact X|intros X; exists s; auto]. }
  split; [|split].
  - intros q x t T. apply ST, (au_trans _ _ _ _ _ AU) in T. destruct T as (l & l' & K & K' & NE & _ & G). destruct (KN _ _ K) as [A1 A2], (KN _ _ K') as [B1 B2]. split; [exact A1|]. split; [exact B1|]. split; [exact NE|]. intros k. rewrite B2, G. apply goto_ext. intros k'. symmetry. apply A2.
  - intros q x S NE [k G]. destruct (S2 (goto rules (kernel m q) x)) as (t & ST' & E); [eapply state_goto; [apply S1, S|exact NE|eauto|reflexivity]|]. exists t. apply ST, (au_trans _ _ _ _ _ AU). apply S4, kern_range in S. apply S4, kern_range in ST'. destruct S as [l K], ST' as [l' K']. apply KK in K, K'. destruct (KN _ _ K) as [_ A2], (KN _ _ K') as [_ B2].
    exists l, l'. split; [exact K|]. split; [exact K'|]. split; [exact NE|]. split; [exists k; apply B2, E, G|]. intros k'. rewrite <- B2, <- E. apply goto_ext, A2.
  - intros q x t t' A C. apply ST in A, C. congruence.
Qed.
Print Assumptions C54_transitions_partial.
(** The first language starts in state 0, and each language has a state of its own. *)
Theorem C54_initial_partial : forall rid first_of rules u busy languages m guards, buildable rid first_of rules u languages -> built rid first_of rules u busy languages m guards ->
  (forall l, In l languages -> exists q, is_state m q /\ forall k, kernel m q k <-> k = language_start l) /\
  (forall l ls, languages = l :: ls -> forall k, kernel m 0 k <-> k = language_start l).
Proof.
  intros rid first_of rules u busy languages m guards BU B. destruct (C54_states_partial _ _ _ _ _ _ _ _ BU B) as (S1 & S2 & S3 & S4). split.
  - intros l L. destruct (S2 (fun k => k = language_start l)) as (q & S & E); [eapply state_language; [exact L|reflexivity]|]. exists q. split; [exact S|]. intros k. symmetry. apply E.
  - destruct (built_facts _ _ _ _ _ _ _ _ BU B) as (m0 & AU & EX & OK & KK & TT & _). intros l ls ->. assert (K : kern (fst (add_initial_state rid l new_machine)) 0 [language_start l]) by (split; [lia|]; eexists; split; reflexivity).
    assert (K1 : kern m 0 [language_start l]).
    { apply KK, EX. destruct BU as [RI FO UO GU LU]. unfold start_machine, add_languages. cbn [fold_left]. destruct (add_initial_state rid l new_machine) as [m1 n] eqn:E. cbn [fst] in *.
      pose proof (add_initial_inv rid RI rules u busy (l :: ls) LU l new_machine m1 n [] (new_machine_inv rid rules u (l :: ls)) (or_introl eq_refl) E) as (I1 & _). destruct (add_languages_inv rid RI rules u busy (l :: ls) LU ls (fun x X => or_intror X) m1 [] I1) as (_ & EX1 & _). apply EX1, K. }
    destruct (kern_with_id m 0 _ K1) as (s & S & EL & _). intros k. unfold kernel. split; [intros (s' & E & X); rewrite S in E; injection E as <-; rewrite EL in X; destruct X as [<-|[]]; reflexivity|]. intros ->. exists s. split; [exact S|]. rewrite EL. left. reflexivity.
Qed.
Print Assumptions C54_initial_partial.
(** Each guard that can come next in a state has been given the state that starts its rule. *)
Theorem C54_guards_partial : forall rid first_of rules u busy languages m guards, buildable rid first_of rules u languages -> built rid first_of rules u busy languages m guards ->
  (forall q k p l rest, is_state m q -> closure_item rules (kernel m q) k -> after_dot k = IGuard p l :: rest -> mfind Z.ltb (rid (mkRule (IGuard p l) l)) guards <> None) /\
  (forall z n, mfind Z.ltb z guards = Some n -> exists p l, z = rid (mkRule (IGuard p l) l) /\ is_state m n /\ forall k, kernel m n k <-> k = guard_start p l).
Proof.
  intros rid first_of rules u busy languages m guards BU B. destruct (built_facts _ _ _ _ _ _ _ _ BU B) as (m0 & AU & EX & OK & KK & TT & G1 & G2 & _).
  assert (KN : forall q l, kern m q l -> is_state m q /\ forall k, kernel m q k <-> In k l).
  { intros q l K. destruct (kern_with_id m q l K) as (s & S & <- & _). unfold is_state, kernel. rewrite S. split; [discriminate|]. intros k. split; [intros (s' & E & X); injection E as <-; exact X|intros X; exists s; auto]. }
  split.
  - intros q k p l rest S C A. destruct (C54_states_partial _ _ _ _ _ _ _ _ BU B) as (_ & _ & _ & S4). apply S4, kern_range in S. destruct S as [lq K]. destruct (KN q lq K) as [_ KL]. apply KK in K. destruct (G2 q lq k p l rest K) as (n & F & _); [apply (closure_item_ext rules _ _ KL), C|exact A|]. congruence.
  - intros z n F. destruct (G1 z n F) as (p & l & E & K). apply KK in K. destruct (KN _ _ K) as [S KL]. exists p, l. split; [exact E|]. split; [exact S|]. intros k. rewrite KL. cbn. split; [intros [<-|[]]; reflexivity|intros ->; auto].
Qed.
Print Assumptions C54_guards_partial.
(** Missing in C54 and C30: grammars whose rules contain the empty item or the end of input (for which
    the closure is wrong, C28); the FIRST sets are taken as they are (C25). *)

(** The lookaheads of the kernel items are exactly those of LALR(1): the end of input for the start of
    a language, what can come first after an item (spontaneous lookaheads), and what is passed on by
    the closure and from state to state. *)
Theorem C30_exact_partial : forall rid first_of rules u busy languages m guards, buildable rid first_of rules u languages -> built rid first_of rules u busy languages m guards ->
  forall q s n k la, state_with_id q m = Some s -> nth_error (st_list s) n = Some k -> nth_error (st_looks s) n = Some la ->
  forall x, In x la <-> lalr_look rules first_of languages Z (kernel m) (step m) q k x.
Proof.
  intros rid first_of rules u busy languages m guards BU B q s n k la S N L x. destruct (built_facts _ _ _ _ _ _ _ _ BU B) as (m0 & AU & EX & OK & KK & TT & _ & _ & LA).
  assert (KE : forall q k, kernel m q k <-> kernel_in m0 q k).
  { intros q0 k0. split; [intros (s0 & S0 & X); exists (st_list s0); split; [apply KK, with_id_kern, S0|exact X]|]. intros (l & K & X). apply KK in K. destruct (kern_with_id m q0 l K) as (s0 & S0 & <- & _). exists s0. auto. }
  assert (SE : forall q x t, step m q x t <-> steps_to m0 q x t) by (intros q0 x0 t; rewrite (step_trans rid) by exact OK; unfold trans, steps_to, BuilderProofs.trans; rewrite TT; reflexivity).
  assert (MO : forall K1 K2 s1 s2 q k x, (forall q k, K1 q k <-> K2 q k) -> (forall q x t, s1 q x t <-> s2 q x t) -> lalr_look rules first_of languages Z K1 s1 q k x -> lalr_look rules first_of languages Z K2 s2 q k x).
  { clear. intros K1 K2 s1 s2 q k x KE SE. induction 1 as [q l L K|q p l K|q k y rest r x C A E B|q k y rest r x L IH A E S|q k y rest q' x L IH A T].
    - apply lalr_language; [exact L|apply KE, K].
    - apply lalr_guard, KE, K.
    - eapply lalr_begins; try eassumption. apply (closure_item_ext rules _ _ (KE q)), C.
    - eapply lalr_passed; [exact IH|exact A|exact E|exact S].
    - eapply lalr_step; [exact IH|exact A|apply SE, T]. }
  pose proof (with_id_kern m q s S) as K. assert (IA : item_at m0 (q, Z.of_nat n) k) by (split; [cbn; lia|]; exists (st_list s); cbn [fst snd]; rewrite Nat2Z.id; split; [apply KK, K|exact N]).
  specialize (LA (q, Z.of_nat n) k x IA). cbn [fst] in LA. assert (E : looks_at m (q, Z.of_nat n) = la).
  { unfold looks_at, lookahead_of. cbn [fst snd]. rewrite Nat2Z.id. unfold state_with_id in S. destruct (_ || _)%bool in S; [discriminate S|]. rewrite S. apply nth_error_nth, L. }
  rewrite E in LA. rewrite LA. split; apply MO; intros; [symmetry; apply KE|symmetry; apply SE|apply KE|apply SE].
Qed.
Print Assumptions C30_exact_partial.
(** There is a set of lookaheads for every item of every state. *)
Theorem C30_all_items_partial : forall rid first_of rules u busy languages m guards, buildable rid first_of rules u languages -> built rid first_of rules u busy languages m guards ->
  forall q s, state_with_id q m = Some s -> length (st_looks s) = length (st_list s) /\ Forall set_ok (st_looks s).
Proof.
  intros rid first_of rules u busy languages m guards BU B q s S. destruct (built_facts _ _ _ _ _ _ _ _ BU B) as (m0 & AU & EX & OK & _). destruct (kern_with_id m q _ (with_id_kern m q s S)) as (s' & S' & _ & X). assert (s' = s) by congruence. subst s'. pose proof (mo_states _ _ OK) as F. rewrite Forall_forall in F. destruct (F s X). auto.
Qed.
Print Assumptions C30_all_items_partial.
(** The whole construction ends for every grammar with finitely many items: there are no accesses out
    of bounds, and for enough fuel the result is there. *)
Theorem C30_ends_partial : forall rid first_of rules us busy width languages, buildable rid first_of rules (fun i => In i us) languages ->
  (forall n stack i, (width <= count_occ item_dec stack i)%nat -> busy n stack i = true) ->
  exists fuel0, forall fuel steps c, (fuel0 <= fuel)%nat -> (fuel0 <= steps)%nat -> earlier_calls rid first_of rules (fun i => In i us) busy c ->
    complete_parser rid first_of rules busy fuel steps (fold_left (fun m l => fst (add_initial_state rid l m)) languages new_machine) [] c <> None.
Proof.
  intros rid first_of rules us busy width languages [RI FO UO GU LU] BB. exists (builder_steps first_of rules us width languages). intros fuel steps c F S E. apply (earlier_calls_ok _ _ _ _ _ _ RI FO UO) in E. apply (complete_parser_ends rid RI first_of FO rules us UO GU busy width BB languages LU); assumption.
Qed.
Print Assumptions C30_ends_partial.

(** 0 -> [=> t4] 1 2 | t5, 1 -> t4 0 | t4, 2 -> (nothing) | t6 *)
Definition nts_guard : list (Z * list (list item)) := [(0, [[IGuard 0 [ITerm 4]; INonterm 1; INonterm 2]; [ITerm 5]]); (1, [[ITerm 4; INonterm 0]; [ITerm 4]]); (2, [[]; [ITerm 6]])].
Definition items_guard : list item := [INonterm 0; INonterm 1; INonterm 2; IGuard 0 [ITerm 4]; ITerm 4; ITerm 5; ITerm 6].
Lemma guard_buildable : buildable rule_number (first_by (rules_of nts_guard) 9) (rules_of nts_guard) (fun i => In i items_guard) [INonterm 0].
Proof.
  assert (FO : forall i, set_ok (first_by (rules_of nts_guard) 9 i)).
  { intros i. unfold first_by. destruct (first (rules_of nts_guard) 9 i []) as [[c' s]|] eqn:E; [|constructor]. eapply (first_set_ok _ 9 i [] c' s); [split; [constructor|intros j t []]|exact E]. }
  split; [apply rule_number_injective|exact FO| | |].
  - intros i U. split; [intros ->; cbn in U; intuition discriminate|]. split.
    + intros H. unfold items_guard in U. cbn [In] in U. repeat (destruct U as [<-|U]; [vm_compute in H; repeat (destruct H as [H|H]; [discriminate H|]); exact H|]). exact U.
    + intros r j X Hj. inversion X as [n r' HR|k rs E|k rs E|k rs E|rs r' HR|rs rs' r' HR HX]; subst; try (cbn in U; intuition discriminate). unfold rules_of, nts_guard in HR. cbn [filter fst] in HR.
      destruct (0 =? n); destruct (1 =? n); destruct (2 =? n); cbn [map snd concat app] in HR; cbn [In] in HR; repeat (destruct HR as [<-|HR]; [cbn [In] in Hj; unfold items_guard; cbn [In]; intuition auto 10|]); destruct HR.
  - intros p l U j Hj. unfold items_guard in U. cbn [In] in U. repeat (destruct U as [U|U]; [try discriminate U; injection U as <- <-; destruct Hj as [<-|[]]; unfold items_guard; cbn [In]; auto 10|]). destruct U.
  - intros l [<-|[]]. left. reflexivity.
Qed.
Example C54_nontrivial : exists m guards, built rule_number (first_by (rules_of nts_guard) 9) (rules_of nts_guard) (fun i => In i items_guard) one_object [INonterm 0] m guards /\
  count_states m = 11 /\ map snd guards = [1] /\ transitions_for_state 0 m = [(ITerm 5, 2); (INonterm 0, 3); (IGuard 0 [ITerm 4], 4)] /\
  (exists s, state_with_id 6 m = Some s /\ st_list s = [mkLr0 (mkRule (INonterm 1) [ITerm 4]) 1; mkLr0 (mkRule (INonterm 1) [ITerm 4; INonterm 0]) 1] /\ st_looks s = [[IEoi; ITerm 6; INonterm 2]; [IEoi; ITerm 6; INonterm 2]]).
Proof.
  eexists. eexists. split; [exists 30%nat, 60%nat, ([], 0%nat); eexists; eexists; split; [constructor|vm_compute; reflexivity]|]. split; [reflexivity|]. split; [reflexivity|]. split; [reflexivity|]. eexists. split; [reflexivity|]. split; reflexivity.
Qed.
