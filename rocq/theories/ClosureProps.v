(** C28: the closure of LR items. *)
From Verif Require Import Base OrdMap GrammarModel GrammarProofs FirstModel FirstProofs FollowModel FollowSpec FollowProofs FollowProps LrItemModel LrItemProofs ClosureModel ClosureSpec ClosureProofs ClosureTermProofs.
Local Open Scope Z_scope.

(** A kernel: LR(0) items with their lookaheads, made of the items [u] of the grammar *)
Definition kernel_of (u : item -> Prop) (kernel : list lr1) : Prop := forall k la, In (k, la) kernel -> set_ok la /\ forall j, In j (after_dot k) -> u j.
Definition in_list (kernel : list lr1) (k : lr0) : Prop := exists la, In (k, la) kernel.
Definition looked (kernel : list lr1) (k : lr0) (x : item) : Prop := exists la, In (k, la) kernel /\ In x la.

Section Calls.
  Context (rid : rule -> Z) (first_of : item -> iset) (rules : Z -> list (list item)) (u : item -> Prop) (busy : nat -> list item -> item -> bool).
  (** The caches that earlier calls leave behind *)
  Inductive earlier_calls : caching -> Prop :=
  | calls_none n : earlier_calls ([], n)
  | calls_generate fuel steps kernel c s c' : earlier_calls c -> kernel_of u kernel -> generate_closure rid first_of rules busy fuel steps kernel c = Some (s, c') -> earlier_calls c'
  | calls_create fuel steps kernel c s c' : earlier_calls c -> kernel_of u kernel -> create_closure rid first_of rules busy fuel steps kernel c = Some (s, c') -> earlier_calls c'
  | calls_item fuel k la c s c' : earlier_calls c -> kernel_of u [(k, la)] -> item_closure rid first_of rules busy fuel k la c = Some (s, c') -> earlier_calls c'.
  Lemma earlier_calls_ok c : injective rid -> (forall i, set_ok (first_of i)) -> ordinary rules first_of u -> earlier_calls c -> cache_ok rid first_of rules u (fst c).
  Proof.
    intros RI FO UO E. induction E as [n|fuel steps kernel c s c' E IH K H|fuel steps kernel c s c' E IH K H|fuel k la c s c' E IH K H].
    - split; [constructor|intros i s []].
    - eapply (generate_closure_exact rid RI first_of FO rules u UO busy kernel (fun k la X => proj1 (K k la X)) (fun k la X => proj2 (K k la X))); eassumption.
    - eapply (create_closure_exact rid RI first_of FO rules u UO busy kernel (fun k la X => proj1 (K k la X)) (fun k la X => proj2 (K k la X))); eassumption.
    - eapply (item_closure_exact rid RI first_of FO rules u UO busy fuel k la); [apply (K k la); left; reflexivity|apply (K k la); left; reflexivity|exact IH|exact H].
  Qed.
End Calls.

(** The closure of a state: exactly the items that the definition gives, with exactly their
    lookaheads, one entry per item.  This holds whatever earlier calls have left in the cache and
    whichever item objects are being cached.  Missing: grammars whose rules contain the empty item or
    the end of input (see the counterexamples); the FIRST sets are taken as they are (C25). *)
Theorem C28_generate_closure_partial : forall rid first_of rules u busy fuel steps kernel c s c',
  injective rid -> (forall i, set_ok (first_of i)) -> ordinary rules first_of u -> kernel_of u kernel -> earlier_calls rid first_of rules u busy c ->
  generate_closure rid first_of rules busy fuel steps kernel c = Some (s, c') ->
  (forall k, (exists la, In (k, la) s) <-> closure_item rules (in_list kernel) k) /\
  (forall k la, In (k, la) s -> forall x, In x la <-> closure_look rules first_of (in_list kernel) (looked kernel) k x) /\
  NoDup (map fst s).
Proof.
  intros rid first_of rules u busy fuel steps kernel c s c' RI FO UO K E H. apply (earlier_calls_ok _ _ _ _ _ _ RI FO UO) in E.
  apply (generate_closure_exact rid RI first_of FO rules u UO busy kernel (fun k la X => proj1 (K k la X)) (fun k la X => proj2 (K k la X))) in H; [|exact E]. destruct H as (_ & OK & M & L). split; [|split].
  - intros k. rewrite (entry_iff rid RI _ _ OK). apply M.
  - intros k la X x. rewrite <- (look_of_entry rid RI _ _ _ OK X). apply L.
  - assert (S := lo_sorted _ _ OK). clear -S RI. induction s as [|[k la] s IH]; [constructor|]. apply msorted_cons in S. destruct S as [S H]. constructor; [|apply IH, S].
    cbn [fst] in *. intros K. apply in_map_iff in K. destruct K as ([k' la'] & E & K). cbn in E. subst k'. specialize (H _ K). cbn in H. rewrite (st_irrefl _ (lr0_strict rid RI)) in H. discriminate H.
Qed.
Print Assumptions C28_generate_closure_partial.
(** The closure without lookaheads, as used to make the states *)
Theorem C28_create_closure_partial : forall rid first_of rules u busy fuel steps kernel c s c',
  injective rid -> (forall i, set_ok (first_of i)) -> ordinary rules first_of u -> kernel_of u kernel -> earlier_calls rid first_of rules u busy c ->
  create_closure rid first_of rules busy fuel steps kernel c = Some (s, c') -> forall k, In k s <-> closure_item rules (in_list kernel) k.
Proof.
  intros rid first_of rules u busy fuel steps kernel c s c' RI FO UO K E H. apply (earlier_calls_ok _ _ _ _ _ _ RI FO UO) in E.
  apply (create_closure_exact rid RI first_of FO rules u UO busy kernel (fun k la X => proj1 (K k la X)) (fun k la X => proj2 (K k la X))) in H; [|exact E]. apply H.
Qed.
Print Assumptions C28_create_closure_partial.
(** The closure of one kernel item, as used to find where lookaheads are passed on *)
Theorem C28_item_closure_partial : forall rid first_of rules u busy fuel k la c s c',
  injective rid -> (forall i, set_ok (first_of i)) -> ordinary rules first_of u -> kernel_of u [(k, la)] -> earlier_calls rid first_of rules u busy c ->
  item_closure rid first_of rules busy fuel k la c = Some (s, c') ->
  (forall k', (exists la', In (k', la') s) <-> closure_item rules (fun k0 => k0 = k) k') /\
  (forall k' la', In (k', la') s -> forall x, In x la' <-> closure_look rules first_of (fun k0 => k0 = k) (fun k0 y => k0 = k /\ In y la) k' x).
Proof.
  intros rid first_of rules u busy fuel k la c s c' RI FO UO K E H. apply (earlier_calls_ok _ _ _ _ _ _ RI FO UO) in E.
  apply (item_closure_exact rid RI first_of FO rules u UO busy fuel k la) in H; [|apply (K k la); left; reflexivity|apply (K k la); left; reflexivity|exact E]. destruct H as (_ & OK & M & L). split.
  - intros k'. rewrite (entry_iff rid RI _ _ OK). apply M.
  - intros k' la' X x. rewrite <- (look_of_entry rid RI _ _ _ OK X). apply L.
Qed.
Print Assumptions C28_item_closure_partial.
(** The computations end, for every grammar with finitely many items, recursive or not.  An item that
    is being cached by as many calls as there are objects for it has its flag set. *)
Theorem C28_ends_partial : forall rid first_of rules us la0 busy width,
  injective rid -> (forall i, set_ok (first_of i)) -> ordinary rules first_of (fun i => In i us) ->
  (forall n stack i, (width <= count_occ item_dec stack i)%nat -> busy n stack i = true) ->
  forall kernel, kernel_of (fun i => In i us) kernel -> (forall k la x, In (k, la) kernel -> In x la -> In x la0) ->
  exists fuel0, forall fuel c, (fuel0 <= fuel)%nat -> earlier_calls rid first_of rules (fun i => In i us) busy c ->
    generate_closure rid first_of rules busy fuel fuel kernel c <> None /\ create_closure rid first_of rules busy fuel fuel kernel c <> None /\
    (forall k la, In (k, la) kernel -> item_closure rid first_of rules busy fuel k la c <> None).
Proof.
  intros rid first_of rules us la0 busy width RI FO UO BB kernel K KL. exists (enough_fuel first_of rules us la0 width + S (length kernel + length (entries first_of rules us la0) + length (starts rules us)))%nat.
  intros fuel c F E. apply (earlier_calls_ok _ _ _ _ _ _ RI FO UO) in E. assert (CA : forall k la, In (k, la) kernel -> calm first_of us la0 k la).
  { intros k la X. split; [apply (K k la X)|]. split; [apply (K k la X)|]. intros x Hx. right. apply in_app_iff. left. eapply KL; eassumption. }
  split; [|split].
  - eapply generate_closure_ends; try eassumption; unfold lr1 in *; lia.
  - eapply create_closure_ends; try eassumption; unfold lr1 in *; lia.
  - intros k la X. eapply item_closure_ends; try eassumption; [apply CA, X|lia].
Qed.
Print Assumptions C28_ends_partial.

(** One object per item: an item is being cached when it is on the stack. *)
Definition one_object (n : nat) (stack : list item) (i : item) : bool := existsb (item_eqb i) stack.
(** The empty item: 0 -> (empty) t4.  The closure holds 0 -> . (empty) t4 but not 0 -> (empty) . t4,
    and it holds an item of a rule that is not in the grammar. *)
Theorem C28_empty_refuted : exists rules kernel s c' k fake,
  generate_closure rule_number (fun i => match i with INonterm _ => [IEmpty; ITerm 4] | _ => [i] end) rules one_object 9 9 kernel ([], 0%nat) = Some (s, c') /\
  In k (map fst s) /\ after_dot k = [IEmpty; ITerm 4] /\ ~ In (advance k) (map fst s) /\
  In fake (map fst s) /\ r_nonterminal (l_rule fake) = IEoi /\ (forall k la, In (k, la) kernel -> r_nonterminal (l_rule k) <> IEoi).
Proof.
  exists (fun n => if n =? 0 then [[IEmpty; ITerm 4]] else []), [(mkLr0 (mkRule IEmpty [INonterm 0]) 0, [IEoi])]. eexists. eexists. exists (mkLr0 (mkRule (INonterm 0) [IEmpty; ITerm 4]) 0), (advance (fake_item IEmpty)).
  split; [vm_compute; reflexivity|]. split; [vm_compute; auto|]. split; [reflexivity|]. split; [intros H; cbn in H; repeat (destruct H as [H|H]; [discriminate H|]); exact H|].
  split; [vm_compute; auto|]. split; [reflexivity|]. intros k la [E|[]]. injection E as <- <-. discriminate.
Qed.
Print Assumptions C28_empty_refuted.
(** The end of input in a rule: 0 -> 1 $, 1 -> t4, kernel E -> . 0 t9.  The lookahead of 1 -> . t4
    is the end of input alone, but t9 is found as well. *)
Theorem C28_eoi_refuted : exists rules kernel s c' k la x,
  generate_closure rule_number (fun i => match i with INonterm _ => [ITerm 4] | _ => [i] end) rules one_object 9 9 kernel ([], 0%nat) = Some (s, c') /\
  In (k, la) s /\ In x la /\
  ~ closure_look rules (fun i => match i with INonterm _ => [ITerm 4] | _ => [i] end) (in_list kernel) (looked kernel) k x.
Proof.
  set (rules := fun n => if n =? 0 then [[INonterm 1; IEoi]] else if n =? 1 then [[ITerm 4]] else []). set (kernel := [(mkLr0 (mkRule IEmpty [INonterm 0; ITerm 9]) 0, [IEoi])]).
  exists rules, kernel. eexists. eexists. exists (mkLr0 (mkRule (INonterm 1) [ITerm 4]) 0), [IEoi; ITerm 9], (ITerm 9).
  split; [vm_compute; reflexivity|].
  split; [vm_compute; auto|].
  split; [right; left; reflexivity|].
  intros H. assert (I : forall k, closure_item rules (in_list kernel) k -> k = mkLr0 (mkRule IEmpty [INonterm 0; ITerm 9]) 0 \/ k = mkLr0 (mkRule (INonterm 0) [INonterm 1; IEoi]) 0 \/ k = mkLr0 (mkRule (INonterm 1) [ITerm 4]) 0).
    { clear. induction 1 as [k [la [E|[]]]|k y rest r H IH A X]; [injection E as <- <-; auto|]. destruct IH as [-> | [-> | ->]]; injection A as <- <-; inversion X as [n r' HR| | | | |]; subst; cbn in HR; destruct HR as [<-|[]]; auto. }
    assert (L : forall k x, closure_look rules (fun i => match i with INonterm _ => [ITerm 4] | _ => [i] end) (in_list kernel) (looked kernel) k x -> k = mkLr0 (mkRule (INonterm 1) [ITerm 4]) 0 -> x = IEoi).
    { induction 1 as [k x (la & [E|[]] & Hx)|k y rest r x HI A X B|k y rest r x HL IH A X S]; intros EK.
      - injection E as <- <-. discriminate EK.
      - injection EK as -> ->. destruct (I k HI) as [-> | [-> | ->]]; try discriminate A; injection A as <-. destruct B as (p & z & q & E & S & Hx & N). destruct p as [|a p]; [injection E as <- <-; cbn in Hx; destruct Hx as [<-|[]]; reflexivity|].
        injection E as -> E. destruct p; discriminate E.
      - injection EK as -> ->. assert (HI : closure_item rules (in_list kernel) k) by (clear -HL; induction HL as [k x (la & H & _)|k y rest r x H A X B|k y rest r x H IH A X S]; [apply in_kernel; exists la; exact H|eapply in_step; eassumption|eapply in_step; eassumption]).
        destruct (I k HI) as [-> | [-> | ->]]; try discriminate A; injection A as <-. specialize (S IEoi (or_introl eq_refl)). cbn in S. destruct S as [S|[]]. discriminate S. }
    specialize (L _ _ H eq_refl). discriminate L.
Qed.
Print Assumptions C28_eoi_refuted.

(** 0 -> 1 2 t7 | t4, 1 -> t3 0, 2 -> t5 | (nothing): the closure of E -> . 0 [$] *)
Example C28_nontrivial : let u := fun i => In i nts_items in let rules := rules_of nts_ex in let first_of := first_by rules 9 in let kernel := [(mkLr0 (mkRule IEmpty [INonterm 0]) 0, [IEoi])] in
  injective rule_number /\ (forall i, set_ok (first_of i)) /\ ordinary rules first_of u /\ kernel_of u kernel /\ earlier_calls rule_number first_of rules u one_object ([], 0%nat) /\
  (forall n stack i, (1 <= count_occ item_dec stack i)%nat -> one_object n stack i = true) /\
  exists s c', generate_closure rule_number first_of rules one_object 20 20 kernel ([], 0%nat) = Some (s, c') /\ length s = 4%nat /\ look_of rule_number (mkLr0 (mkRule (INonterm 1) [ITerm 3; INonterm 0]) 0) s = [ITerm 5; ITerm 7; INonterm 2].
Proof.
  cbn zeta. split; [apply rule_number_injective|]. assert (FO : forall i, set_ok (first_by (rules_of nts_ex) 9 i)).
  { intros i. unfold first_by. destruct (first (rules_of nts_ex) 9 i []) as [[c' s]|] eqn:E; [|constructor]. eapply (first_set_ok _ 9 i [] c' s); [split; [constructor|intros j t []]|exact E]. }
  split; [exact FO|]. split; [|split; [|split; [constructor|split]]].
  - intros i U. split; [intros ->; cbn in U; intuition discriminate|]. split.
    + intros H. unfold nts_items in U. cbn [In] in U. repeat (destruct U as [<-|U]; [vm_compute in H; repeat (destruct H as [H|H]; [discriminate H|]); exact H|]). exact U.
    + intros r j X Hj. inversion X as [n r' HR|k rs E|k rs E|k rs E|rs r' HR|rs rs' r' HR HX]; subst; try (cbn in U; intuition discriminate). apply nts_bodies in HR.
      destruct HR as [(_ & [-> | ->])|[(_ & ->)|(_ & [-> | ->])]]; cbn in Hj; unfold nts_items; cbn [In]; intuition auto 10.
  - intros k la [E|[]]. injection E as <- <-. split; [apply single_ok|]. intros j [<-|[]]. left. reflexivity.
  - intros n stack i H. unfold one_object. apply existsb_exists. exists i. split; [apply (count_occ_In item_dec); lia|apply item_eqb_spec; reflexivity].
  - eexists. eexists. split; [vm_compute; reflexivity|]. split; reflexivity.
Qed.
