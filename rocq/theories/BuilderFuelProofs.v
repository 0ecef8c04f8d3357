(** More fuel does not change what the builder makes. *)
From Verif Require Import Base OrdMap GrammarModel FirstModel LrItemModel ClosureModel MachineModel BuilderModel.
Local Open Scope Z_scope.

Ltac next := match goal with |- (match ?e with Some _ => _ | None => None end = Some _) -> _ => let E := fresh "E" in destruct e as [?|] eqn:E; [|discriminate] end.
Section Fuel.
  Context (rid : rule -> Z) (first_of : item -> iset) (rules : Z -> list (list item)) (busy : nat -> list item -> item -> bool).
  Lemma insert_bodies_more rec rec' i bs follow : (forall i k la st c r, rec i k la st c = Some r -> rec' i k la st c = Some r) -> forall st c r, insert_bodies rid rec i bs follow st c = Some r -> insert_bodies rid rec' i bs follow st c = Some r.
  Proof.
    intros R. induction bs as [|b bs IH]; intros st c r; [auto|]. cbn [insert_bodies]. next. destruct p as [st1 c1].
    assert (E' : insert_closure_item rid rec' (mkLr0 (mkRule i b) 0) follow st c = Some (st1, c1)).
    { revert E. unfold insert_closure_item. destruct (lr1_insert _ _ _ _) as [st' grew]. destruct grew; [|auto]. destruct (r_items _) as [|[] ?]; auto. }
    rewrite E'. apply IH.
  Qed.
  Lemma closure_more rec rec' i k la st c r : (forall i k la st c r, rec i k la st c = Some r -> rec' i k la st c = Some r) -> closure rid first_of rules rec i k la st c = Some r -> closure rid first_of rules rec' i k la st c = Some r.
  Proof. intros R. unfold closure. destruct i; auto; apply insert_bodies_more, R. Qed.
  Lemma cache_closure_more fuel : forall fuel' stack i k la st c r, (fuel <= fuel')%nat -> cache_closure rid first_of rules busy fuel stack i k la st c = Some r -> cache_closure rid first_of rules busy fuel' stack i k la st c = Some r.
  Proof.
    induction fuel as [|fuel IH]; intros [|fuel'] stack i k la st c r F; try discriminate; [lia|]. cbn [cache_closure]. destruct (busy _ stack i).
    - apply closure_more. intros. eapply IH; [lia|eassumption].
    - destruct (cached_set i _) as [|x cached]; [|auto].
      destruct (closure rid first_of rules (cache_closure rid first_of rules busy fuel (i :: stack)) i (fake_item i) [IEoi] [] (fst c, S (snd c))) as [[closed c1]|] eqn:E; [|discriminate].
      rewrite (closure_more _ (cache_closure rid first_of rules busy fuel' (i :: stack)) _ _ _ _ _ _ (fun j k la st c r H => IH fuel' (i :: stack) j k la st c r (le_S_n _ _ F) H) E). auto.
  Qed.
  Lemma close_queue0_more fuel fuel' : (fuel <= fuel')%nat -> forall steps steps' queue target c r, (steps <= steps')%nat ->
    close_queue0 rid first_of rules busy fuel steps queue target c = Some r -> close_queue0 rid first_of rules busy fuel' steps' queue target c = Some r.
  Proof.
    intros F. induction steps as [|steps IH]; intros [|steps'] queue target c r S; try discriminate; [lia|]. apply le_S_n in S. cbn [close_queue0]. destruct queue as [|[k la] queue]; [auto|]. destruct (after_dot k) as [|i rest]; [apply IH, S|].
    next. rewrite (cache_closure_more fuel fuel' [] _ _ _ _ _ _ F E). destruct p as [items c1]. destruct (add_new0 rid items target queue) as [target' queue']. apply IH, S.
  Qed.
  Lemma make_states_more fuel fuel' : (fuel <= fuel')%nat -> forall steps steps' queue max m guards c r, (steps <= steps')%nat ->
    make_states rid first_of rules busy fuel steps queue max m guards c = Some r -> make_states rid first_of rules busy fuel' steps' queue max m guards c = Some r.
  Proof.
    intros F. induction steps as [|steps IH]; intros [|steps'] queue max m guards c r S; try discriminate; [lia|]. apply le_S_n in S. cbn [make_states]. destruct queue as [|q queue]; [auto|]. destruct (state_with_id q m) as [s|]; [|discriminate].
    unfold create_closure. next. rewrite (close_queue0_more fuel fuel' F fuel fuel' _ _ _ _ F E). destruct p as [items c1]. destruct (scan_closure rid items [] m guards queue) as [[[news m'] guards'] queue']. destruct (add_targets rid q news m' max queue') as [[[m2 max'] queue2]|]; [|discriminate]. apply IH, S.
  Qed.
  Lemma pass_state_more fuel fuel' q : (fuel <= fuel')%nat -> forall ks n ts m p c r, pass_state rid first_of rules busy fuel q ks n ts m p c = Some r -> pass_state rid first_of rules busy fuel' q ks n ts m p c = Some r.
  Proof.
    intros F. induction ks as [|k ks IH]; intros n ts m p c r; [auto|]. cbn [pass_state]. destruct (at_end k); [apply IH|]. next.
    assert (E' : item_closure rid first_of rules busy fuel' k [IEmpty] c = Some p0) by (revert E; unfold item_closure; destruct (after_dot k); [auto|]; apply cache_closure_more, F).
    rewrite E'. destruct p0 as [items c1]. destruct (pass_items rid (q, n) ts items m p) as [[m' p']|]; [|discriminate]. apply IH.
  Qed.
  Lemma pass_states_more fuel fuel' : (fuel <= fuel')%nat -> forall qs m p c r, pass_states rid first_of rules busy fuel qs m p c = Some r -> pass_states rid first_of rules busy fuel' qs m p c = Some r.
  Proof.
    intros F. induction qs as [|q qs IH]; intros m p c r; [auto|]. cbn [pass_states]. destruct (state_with_id q m) as [s|]; [|discriminate]. next. rewrite (pass_state_more fuel fuel' q F _ _ _ _ _ _ _ E). destruct p0 as [[m' p'] c']. apply IH.
  Qed.
  Lemma propagate_more : forall steps steps' todo p m r, (steps <= steps')%nat -> propagate steps todo p m = Some r -> propagate steps' todo p m = Some r.
  Proof.
    induction steps as [|steps IH]; intros [|steps'] todo p m r S; try discriminate; [lia|]. apply le_S_n in S. cbn [propagate]. destruct todo as [|t todo]; [auto|]. destruct (state_with_id (fst t) m) as [s|]; [|discriminate]. next. next. destruct p0 as [m' todo']. apply IH, S.
  Qed.
  Lemma complete_parser_more fuel fuel' steps steps' m guards c r : (fuel <= fuel')%nat -> (steps <= steps')%nat ->
    complete_parser rid first_of rules busy fuel steps m guards c = Some r -> complete_parser rid first_of rules busy fuel' steps' m guards c = Some r.
  Proof.
    intros F S. unfold complete_parser, complete_states, complete_lookaheads. next. rewrite (make_states_more fuel fuel' F steps steps' _ _ _ _ _ _ S E). destruct p as [[m1 g1] c1].
    next. destruct (pass_states rid first_of rules busy fuel (state_ids m1) m1 [] c1) as [[[m2 p2] c2]|] eqn:P; [|discriminate E0]. rewrite (pass_states_more fuel fuel' F _ _ _ _ _ P).
    destruct (propagate steps (map fst p2) p2 m2) as [m3|] eqn:Q; [|discriminate E0]. rewrite (propagate_more steps steps' _ _ _ _ S Q). injection E0 as <-. auto.
  Qed.
End Fuel.
