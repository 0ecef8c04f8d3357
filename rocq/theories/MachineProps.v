(** C29: LR states and the LALR state machine. *)
From Verif Require Import Base OrdMap GrammarModel GrammarProofs FirstModel FirstProofs LrItemModel LrItemProofs MachineModel MachineProofs.
Local Open Scope Z_scope.

Section Histories.
  Context (rid : rule -> Z).
  (** A state made by adding items to an empty one *)
  Inductive made : lrstate -> Prop :=
  | made_new : made new_state
  | made_add k s s' n : made s -> state_add rid k s = (s', n) -> made s'.
  (** The machines that calls of add_state, add_transition and add_lookahead lead to.  [used m m'] is
      for one call.  A state that is passed is new or has an identifier from before. *)
  Inductive call : machine -> machine -> Prop :=
  | call_state s m m' s' n : made s -> add_state rid s m = (m', s', n) -> call m m'
  | call_again s m m' s' n : 0 <= st_ident s -> add_state rid s m = (m', s', n) -> call m m'
  | call_transition q i t m m' : add_transition q i t m = Some m' -> call m m'
  | call_lookahead q n la m m' b : set_ok la -> add_lookahead q n la m = Some (m', b) -> call m m'.
  Inductive used : machine -> Prop :=
  | used_none : used new_machine
  | used_call m m' : used m -> call m m' -> used m'.
  Context (RI : injective rid).
  Lemma made_ok s : made s -> state_ok rid s /\ st_ident s = -1.
  Proof. induction 1 as [|k s s' n M [OK ID] H]; [split; [apply new_state_ok|reflexivity]|]. apply (state_add_spec rid RI) in H; [|exact OK]. destruct H as (OK' & E & _). split; [exact OK'|congruence]. Qed.
  Lemma again_same s m m' s' n : 0 <= st_ident s -> add_state rid s m = (m', s', n) -> m' = m /\ s' = s /\ n = st_ident s.
  Proof. intros P H. unfold add_state in H. rewrite (proj2 (Z.leb_le _ _) P) in H. injection H as <- <- <-. auto. Qed.
  Lemma call_ok m m' : machine_ok rid m -> call m m' -> machine_ok rid m'.
  Proof.
    intros OK C. destruct C as [s m m' s' n M H|s m m' s' n P H|q i t m m' H|q n la m m' b SL H].
    - destruct (made_ok s M) as [SO ID]. eapply (add_state_ok rid RI); try eassumption; lia.
    - apply again_same in H; [|exact P]. destruct H as (-> & _). exact OK.
    - eapply (add_transition_spec rid); eassumption.
    - destruct (Z.ltb_spec n 0) as [N|N]; [unfold add_lookahead in H; rewrite (proj2 (Z.ltb_lt _ _) N) in H; injection H as <- <-; exact OK|]. eapply (add_lookahead_spec rid); eassumption.
  Qed.
  Lemma used_ok m : used m -> machine_ok rid m.
  Proof. induction 1 as [|m m' U IH C]; [apply new_machine_ok|eapply call_ok; eassumption]. Qed.
End Histories.

Lemma state_with_id_in m n s : state_with_id n m = Some s <-> 0 <= n /\ nth_error (m_states m) (Z.to_nat n) = Some s.
Proof.
  unfold state_with_id. destruct (Z.ltb_spec n 0) as [N|N]; cbn [orb]; [split; [discriminate|lia]|]. destruct (Z.leb_spec (Z.of_nat (length (m_states m))) n) as [L|L]; [|tauto].
  split; [discriminate|]. intros [_ H]. assert (Z.to_nat n < length (m_states m))%nat by (apply nth_error_Some; congruence). lia.
Qed.
(** Adding a new state: if the machine has a state with the same kernel, that state's identifier is
    returned and nothing changes. *)
Theorem C29_known_state : forall rid m s m' s' n, injective rid -> used rid m -> made rid s -> (exists p t, state_with_id p m = Some t /\ st_list t = st_list s) -> add_state rid s m = (m', s', n) ->
  m' = m /\ st_ident s' = n /\ st_list s' = st_list s /\ exists t, state_with_id n m = Some t /\ st_list t = st_list s.
Proof.
  intros rid m s m' s' n RI U M (p & t & X & E) H. apply (used_ok rid RI) in U. destruct (made_ok rid RI s M) as [SO ID]. apply state_with_id_in in X. destruct X as [_ X].
  apply (add_state_known rid RI) in H; [|exact U|exact ID|apply in_map_iff; exists t; split; [exact E|eapply nth_error_In, X]]. destruct H as (-> & -> & P & t' & X' & E'). split; [reflexivity|]. split; [reflexivity|]. split; [reflexivity|]. exists t'. split; [apply state_with_id_in; auto|exact E'].
Qed.
Print Assumptions C29_known_state.
(** Otherwise the state gets the next identifier. *)
Theorem C29_new_state : forall rid m s m' s' n, injective rid -> used rid m -> made rid s -> (forall p t, state_with_id p m = Some t -> st_list t <> st_list s) -> add_state rid s m = (m', s', n) ->
  n = count_states m /\ count_states m' = count_states m + 1 /\ state_with_id n m' = Some s' /\ st_ident s' = n /\ st_list s' = st_list s /\ transitions_for_state n m' = [].
Proof.
  intros rid m s m' s' n RI U M X H. apply (used_ok rid RI) in U. destruct (made_ok rid RI s M) as [SO ID]. apply (add_state_new rid RI) in H; [|exact U|exact SO|exact ID|].
  - destruct H as (OK & -> & -> & ES & ET). unfold count_states. split; [reflexivity|]. split; [rewrite ES, app_length; cbn; lia|]. split; [apply state_with_id_in; split; [lia|]; rewrite ES, Nat2Z.id, nth_error_app2, Nat.sub_diag by lia; reflexivity|]. split; [reflexivity|]. split; [reflexivity|].
    unfold transitions_for_state. rewrite ET, app_length, (mo_trans rid m U), Nat2Z.id, app_nth2, (mo_trans rid m U), Nat.sub_diag by (rewrite (mo_trans rid m U); lia). destruct (_ || _)%bool; reflexivity.
  - intros K. apply in_map_iff in K. destruct K as (t & E & K). apply In_nth_error in K. destruct K as [p K]. apply (X (Z.of_nat p) t); [apply state_with_id_in; split; [lia|rewrite Nat2Z.id; exact K]|exact E].
Qed.
Print Assumptions C29_new_state.
(** No two states of the machine have the same kernel. *)
Theorem C29_unique : forall rid m p q s t, injective rid -> used rid m -> state_with_id p m = Some s -> state_with_id q m = Some t -> st_list s = st_list t -> p = q.
Proof.
  intros rid m p q s t RI U P Q E. apply (used_ok rid RI) in U. apply state_with_id_in in P, Q. destruct P as [P1 P2], Q as [Q1 Q2].
  assert (A : mfind (kernel_ltb rid) (st_list t) (m_ids m) = Some p) by (apply (id_of_kernel rid RI); [exact U|]; eauto). assert (B : mfind (kernel_ltb rid) (st_list t) (m_ids m) = Some q) by (apply (id_of_kernel rid RI); [exact U|]; eauto). congruence.
Qed.
Print Assumptions C29_unique.
(** Each state knows its own identifier. *)
Theorem C29_identifier : forall rid m p s, injective rid -> used rid m -> state_with_id p m = Some s -> st_ident s = p.
Proof. intros rid m p s RI U H. apply (used_ok rid RI) in U. apply state_with_id_in in H. destruct H as [P H]. rewrite (mo_ident rid m U _ _ H). lia. Qed.
Print Assumptions C29_identifier.
(** No call changes the kernel or the identifier of a state, nor a transition that is there. *)
Theorem C29_kept : forall rid m m', injective rid -> used rid m -> call rid m m' ->
  (forall p s, state_with_id p m = Some s -> exists s', state_with_id p m' = Some s' /\ st_list s' = st_list s /\ st_ident s' = st_ident s) /\
  (forall p i t, mfind item_ltb i (transitions_for_state p m) = Some t -> mfind item_ltb i (transitions_for_state p m') = Some t).
Proof.
  intros rid m m' RI U C. pose proof (call_ok rid RI m m' (used_ok rid RI m U) C) as OK'. apply (used_ok rid RI) in U.
  assert (ID : forall p s s', state_with_id p m = Some s -> state_with_id p m' = Some s' -> st_ident s' = st_ident s) by (intros p s s' A B; apply state_with_id_in in A, B; rewrite (mo_ident rid m U _ _ (proj2 A)), (mo_ident rid m' OK' _ _ (proj2 B)); reflexivity).
  assert (G : (forall p s, state_with_id p m = Some s -> exists s', state_with_id p m' = Some s' /\ st_list s' = st_list s) /\ (forall p i t, mfind item_ltb i (transitions_for_state p m) = Some t -> mfind item_ltb i (transitions_for_state p m') = Some t)).
  { clear ID. destruct C as [s m m' s' n M H|s m m' s' n P H|q i t m m' H|q n la m m' b SL H].
    - destruct (made_ok rid RI s M) as [SO ID]. destruct (in_dec (list_eq_dec (lr0_dec rid RI)) (st_list s) (map st_list (m_states m))) as [K|K].
      + apply (add_state_known rid RI) in H; [|exact U|lia|exact K]. destruct H as (-> & _). split; eauto.
      + apply (add_state_new rid RI) in H; [|exact U|exact SO|lia|exact K]. destruct H as (_ & -> & -> & ES & ET). split.
        * intros p t H. apply state_with_id_in in H. destruct H as [P H]. exists t. split; [|reflexivity]. apply state_with_id_in. split; [exact P|]. rewrite ES, nth_error_app1; [exact H|]. apply nth_error_Some. congruence.
        * intros p i t H. unfold transitions_for_state in *. rewrite ET, app_length. destruct (Z.ltb_spec p 0) as [N|N]; [exact H|]. cbn [orb] in *. destruct (Z.leb_spec (Z.of_nat (length (m_trans m))) p) as [L|L]; [discriminate H|]. rewrite (proj2 (Z.leb_gt _ _)) by (cbn; lia). rewrite app_nth1 by lia. exact H.
    - apply again_same in H; [|exact P]. destruct H as (-> & _). split; eauto.
    - apply (add_transition_spec rid) in H; [|exact U]. destruct H as (_ & ES & _ & TR). split.
      + intros p s H. exists s. split; [|reflexivity]. apply state_with_id_in in H. apply state_with_id_in. rewrite ES. exact H.
      + intros p j v H. rewrite TR, H. reflexivity.
    - destruct (Z.ltb_spec n 0) as [N|N]; [unfold add_lookahead in H; rewrite (proj2 (Z.ltb_lt _ _) N) in H; injection H as <- <-; split; eauto|]. apply (add_lookahead_spec rid) in H; [|exact U|exact N]. destruct H as (_ & _ & ET & EL & _). split.
      + intros p s H. apply state_with_id_in in H. destruct H as [P H]. apply (map_nth_error st_list) in H. rewrite <- EL in H. destruct (nth_error (m_states m') (Z.to_nat p)) as [s'|] eqn:E.
        * rewrite (map_nth_error st_list _ _ E) in H. injection H as H. exists s'. split; [apply state_with_id_in; auto|exact H].
        * apply nth_error_None in E. assert (Z.to_nat p < length (map st_list (m_states m')))%nat by (apply nth_error_Some; congruence). rewrite map_length in *. lia.
      + intros p i t H. unfold transitions_for_state in *. rewrite ET. exact H. }
  destruct G as [G1 G2]. split; [|exact G2]. intros p s H. destruct (G1 p s H) as (s' & A & B). exists s'. split; [exact A|]. split; [exact B|]. eapply ID; eassumption.
Qed.
Print Assumptions C29_kept.
(** A transition that is added is there unless its symbol had one already; nothing else changes. *)
Theorem C29_transitions : forall rid m q i t m', injective rid -> used rid m -> add_transition q i t m = Some m' ->
  (forall p j, mfind item_ltb j (transitions_for_state p m') = match mfind item_ltb j (transitions_for_state p m) with
    | Some v => Some v | None => if (p =? q) && item_eqb j i && (0 <=? t) && (t <? count_states m) then Some t else None end) /\
  (forall p, state_with_id p m' = state_with_id p m).
Proof.
  intros rid m q i t m' RI U H. apply (used_ok rid RI) in U. apply (add_transition_spec rid) in H; [|exact U]. destruct H as (_ & ES & _ & TR). split; [exact TR|]. intros p. unfold state_with_id. rewrite ES. reflexivity.
Qed.
Print Assumptions C29_transitions.
(** Transitions lead to states of the machine. *)
Theorem C29_targets : forall rid m p i t, injective rid -> used rid m -> mfind item_ltb i (transitions_for_state p m) = Some t -> exists s, state_with_id t m = Some s.
Proof.
  intros rid m p i t RI U H. apply (used_ok rid RI) in U. unfold transitions_for_state in H. destruct (Z.ltb_spec p 0) as [N|N]; [discriminate H|]. cbn [orb] in H. destruct (Z.leb_spec (Z.of_nat (length (m_trans m))) p) as [L|L]; [discriminate H|].
  destruct (nth_error (m_trans m) (Z.to_nat p)) as [ts|] eqn:E; [|apply nth_error_None in E; lia]. rewrite (nth_error_nth _ _ [] E) in H. apply (mfind_in _ item_strict) in H; [|pose proof (mo_sorted_trans rid m U) as F; rewrite Forall_forall in F; apply F; eapply nth_error_In, E].
  pose proof (mo_targets rid m U _ _ _ _ E H) as T. destruct (nth_error (m_states m) (Z.to_nat t)) as [s|] eqn:S; [|apply nth_error_None in S; lia]. exists s. apply state_with_id_in. split; [lia|exact S].
Qed.
Print Assumptions C29_targets.
(** Identifiers that are not in use: no state and no transitions *)
Theorem C29_out_of_range : forall rid m n, injective rid -> used rid m -> n < 0 \/ count_states m <= n -> state_with_id n m = None /\ transitions_for_state n m = [].
Proof.
  intros rid m n RI U H. apply (used_ok rid RI) in U. unfold count_states, state_with_id, transitions_for_state in *. rewrite (mo_trans rid m U).
  destruct H as [H|H]; [rewrite (proj2 (Z.ltb_lt n 0) H)|rewrite (proj2 (Z.leb_le _ n) H), Bool.orb_true_r]; split; reflexivity.
Qed.
Print Assumptions C29_out_of_range.
(** Adding to a lookahead gives the union without the empty item; the answer says whether it grew. *)
Theorem C29_lookahead : forall rid m q n la m' b, injective rid -> used rid m -> set_ok la -> 0 <= n -> add_lookahead q n la m = Some (m', b) ->
  (forall p k x, In x (lookahead_of p k m') <-> In x (lookahead_of p k m) \/ (Z.of_nat p = q /\ Z.of_nat k = n /\ In x la /\ x <> IEmpty)) /\
  (b = true <-> exists x, In x la /\ x <> IEmpty /\ ~ In x (lookahead_of (Z.to_nat q) (Z.to_nat n) m)).
Proof. intros rid m q n la m' b RI U SL N H. apply (used_ok rid RI) in U. apply (add_lookahead_spec rid) in H; [|exact U|exact N]. destruct H as (_ & _ & _ & _ & A & B). split; assumption. Qed.
Print Assumptions C29_lookahead.
(** The items of a state: [add] answers the place of the item, and adds nothing if it is there. *)
Theorem C29_items : forall rid s k s' n, injective rid -> made rid s -> state_add rid k s = (s', n) ->
  nth_error (st_list s') n = Some k /\ find_identifier rid k s' = Z.of_nat n /\ NoDup (st_list s') /\ length (st_looks s') = length (st_list s') /\ (In k (st_list s) -> s' = s) /\ (~ In k (st_list s) -> st_list s' = st_list s ++ [k]).
Proof.
  intros rid s k s' n RI M H. destruct (made_ok rid RI s M) as [SO ID]. apply (state_add_spec rid RI) in H; [|exact SO]. destruct H as (SO' & _ & N & A & B). split; [exact N|]. split; [apply (find_identifier_spec rid RI); assumption|].
  split; [apply (state_nodup rid RI), SO'|]. split; [apply SO'|]. split; [exact A|]. intros X. apply B, X.
Qed.
Print Assumptions C29_items.
(** Kernels are compared as lists: two states with the same items, added in different orders, are
    different states. *)
Theorem C29_order_refuted : exists k k' s s' m m', made rule_number s /\ made rule_number s' /\ st_list s = [k; k'] /\ st_list s' = [k'; k] /\
  add_state rule_number s new_machine = (m, set_identifier 0 s, 0) /\ add_state rule_number s' m = (m', set_identifier 1 s', 1).
Proof.
  set (k := mkLr0 (mkRule (INonterm 0) [ITerm 1]) 0). set (k' := mkLr0 (mkRule (INonterm 0) [ITerm 1]) 1). exists k, k'. eexists. eexists. eexists. eexists.
  split; [eapply (made_add _ k'); [eapply (made_add _ k); [apply made_new|]|]; vm_compute; reflexivity|]. split; [eapply (made_add _ k); [eapply (made_add _ k'); [apply made_new|]|]; vm_compute; reflexivity|].
  split; [reflexivity|]. split; [reflexivity|]. split; vm_compute; reflexivity.
Qed.
Print Assumptions C29_order_refuted.
(** Two states, a transition between them, and the first state found again *)
Example C29_nontrivial : exists s t m1 m2 m3 m4, let k := mkLr0 (mkRule IEmpty [INonterm 0]) 0 in injective rule_number /\ made rule_number s /\ made rule_number t /\ st_list s = [k] /\ st_list t = [advance k] /\
  used rule_number m3 /\ add_state rule_number s new_machine = (m1, set_identifier 0 s, 0) /\ add_state rule_number t m1 = (m2, set_identifier 1 t, 1) /\ add_transition 0 (INonterm 0) 1 m2 = Some m3 /\
  add_state rule_number s m3 = (m4, set_identifier 0 s, 0) /\ m4 = m3 /\ transitions_for_state 0 m3 = [(INonterm 0, 1)].
Proof.
  set (k := mkLr0 (mkRule IEmpty [INonterm 0]) 0). eexists. eexists. eexists. eexists. eexists. eexists. cbn zeta. split; [apply rule_number_injective|].
  assert (MS : made rule_number (fst (state_add rule_number k new_state))) by (eapply made_add; [apply made_new|apply surjective_pairing]). assert (MT : made rule_number (fst (state_add rule_number (advance k) new_state))) by (eapply made_add; [apply made_new|apply surjective_pairing]).
  split; [exact MS|]. split; [exact MT|]. split; [reflexivity|]. split; [reflexivity|]. split; [eapply used_call; [eapply used_call; [eapply used_call; [apply used_none|]|]|]; [eapply call_state; [exact MS|]|eapply call_state; [exact MT|]|eapply (call_transition _ 0 (INonterm 0) 1)]; vm_compute; reflexivity|].
  repeat (split; [vm_compute; reflexivity|]). vm_compute; reflexivity.
Qed.
