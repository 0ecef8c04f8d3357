(** C90: parser tables are values, and their memory is released. *)

From Verif Require EmitProofs.
From Verif Require Import Base MachineModel MachineProofs GrammarModel FirstModel ActionModel TableModel TableOwnModel TableOwnSpec TableOwnProofs.
From Coq Require Import Lia.
Local Open Scope nat_scope.

(** However tables are made, copied, assigned and destroyed, nothing released is
    read or released again, and each object that exists shows what it should:
    what was given to it last. *)
Theorem C90_values : forall l s, Forall proper l -> values [] l = Some s ->
  exists w, run start l = Some w
    /\ (forall x v, held s x = Some v -> exists o, live w x = Some o /\ see (w_memory w) o = Some (v_tables v))
    /\ (forall x, held s x = None -> live w x = None).
Proof.
  intros l s P E. destruct (run_inv l _ _ _ inv_start P E) as (w & R & I & _). exists w. split; [exact R |]. split.
  - intros x v H. destruct (i_good _ _ I _ _ H) as (o & L & G & _). exists o. split; [exact L | now apply see_good].
  - apply (i_none _ _ I).
Qed.
Print Assumptions C90_values.

(** The arrays which a client put into an object are never released and never
    changed, whatever is done with the object and its copies. *)
Theorem C90_client : forall before t weak after w1 w2 w3 s, Forall proper (before ++ Wrap t weak :: after) ->
  values [] (before ++ Wrap t weak :: after) = Some s ->
  run start before = Some w1 -> step w1 (Wrap t weak) = Some w2 -> run w2 after = Some w3 ->
  forall a, length (w_memory w1) <= a < length (w_memory w2) -> nth_error (w_memory w3) a = nth_error (w_memory w2) a /\ exists x, nth_error (w_memory w2) a = Some (Some x).
Proof.
  intros before t weak after w1 w2 w3 s P E R1 ST R3 a L. apply Forall_app in P as [PB P]. inversion P as [| ? ? PW PA]; subst.
  assert (V : exists s1, values [] before = Some s1 /\ values s1 (Wrap t weak :: after) = Some s).
  { clear - E. revert E. generalize (@nil (option value)) as s0. induction before as [| o l IH]; intros s0 E; [exists s0; auto |].
    cbn in E |- *. destruct (value_step s0 o); [auto | discriminate]. }
  destruct V as (s1 & V1 & V2). cbn in V2. destruct (run_inv before _ _ _ inv_start PB V1) as (w1' & R1' & I1 & _).
  assert (w1' = w1) by congruence. subst w1'.
  destruct (step_inv w1 s1 (Wrap t weak) _ I1 PW eq_refl) as (w2' & ST' & I2 & _). assert (w2' = w2) by congruence. subst w2'.
  pose proof (wrap_foreign _ _ _ _ _ a I1 PW ST L) as FA. split.
  - exact (run_foreign after _ _ _ _ _ I2 PA V2 R3 FA).
  - cbn [step] in ST. destruct PW as [P1 P2]. rewrite (make_eq _ _ _ _ P1) in ST. injection ST as <-. cbn [w_memory] in *.
    replace a with (length (w_memory w1) + (a - length (w_memory w1))) by lia. rewrite nth_app_new. rewrite app_length in L.
    set (k := block (t_terminals t) (t_nonterminals t) ++ made_tail (length (w_memory w1)) t weak) in *.
    assert (F : Forall (fun c => exists x : array, c = Some x) k).
    { unfold k. apply Forall_app. split.
      - apply block_some.
      - unfold made_tail. destruct weak; cbn; repeat constructor; eauto. }
    destruct (nth_error k (a - length (w_memory w1))) as [c |] eqn:EC; [| apply nth_error_None in EC; lia].
    rewrite Forall_forall in F. destruct (F c (nth_error_In _ _ EC)) as (x & ->). eauto.
Qed.
Print Assumptions C90_client.

(** How many arrays there are after a history: those that were made less those
    that were released, which are the arrays of objects that are destroyed or
    assigned to and are not around arrays of a client, or copies of such. *)
Theorem C90_count : forall l s w, Forall proper l -> values [] l = Some s -> run start l = Some w ->
  alive (w_memory w) + total removed [] l = total added [] l.
Proof.
  intros l s w P E R. destruct (run_inv l _ _ _ inv_start P E) as (w' & R' & _ & A). assert (w' = w) by congruence. subst w'. exact A.
Qed.
Print Assumptions C90_count.

(** If no arrays of clients are used, then nothing is left once all objects are
    destroyed. *)
Theorem C90_released_partial : forall l s, Forall proper l -> forallb (fun o => negb (wraps o)) l = true -> values [] l = Some s ->
  (forall x, held s x = None) -> exists w, run start l = Some w /\ alive (w_memory w) = 0.
Proof.
  intros l s P W E H. destruct (run_inv l _ _ _ inv_start P E) as (w & R & _ & A). exists w. split; [exact R |].
  assert (AO : all_owned []) by (intros [| x] v D; discriminate).
  pose proof (total_sizes l [] s W AO E) as T.
  assert (Z : sizes s = 0).
  { clear - H. unfold sizes. induction s as [| c s IH]; [reflexivity |]. destruct c as [v |]; [discriminate (H 0) |]. cbn. apply IH. intros x. exact (H (S x)). }
  rewrite Z in T. change (sizes []) with 0 in T. change (alive (w_memory start)) with 0 in A. lia.
Qed.
Print Assumptions C90_released_partial.

(** The full claim is false: the arrays of a copy of an object around a client's
    arrays are never released; nor those of an object to which such an object
    was assigned. *)
Theorem C90_released_refuted : forall t weak t' weak', proper (Wrap t weak) -> proper (Build t' weak') ->
  (exists w, run start [Wrap t weak; Copy 0; Destroy 1; Destroy 0] = Some w
     /\ alive (w_memory w) = arrays (mkValue t weak false) + arrays (mkValue t weak false))
  /\ (exists w, run start [Build t' weak'; Wrap t weak; Assign 0 1; Destroy 0; Destroy 1] = Some w
     /\ alive (w_memory w) = arrays (mkValue t weak false) + arrays (mkValue t weak false))
  /\ (exists w, run start [Wrap t weak; Destroy 0] = Some w /\ alive (w_memory w) = arrays (mkValue t weak false)).
Proof.
  intros t weak t' weak' P P'. repeat (match goal with |- _ /\ _ => split end).
  - destruct (run_inv [Wrap t weak; Copy 0; Destroy 1; Destroy 0] _ _ _ inv_start ltac:(repeat constructor; apply P) eq_refl) as (w & R & _ & A).
    exists w. split; [exact R |]. unfold arrays in *. cbn in A. cbn. lia.
  - destruct (run_inv [Build t' weak'; Wrap t weak; Assign 0 1; Destroy 0; Destroy 1] _ _ _ inv_start ltac:(repeat constructor; try apply P; apply P') eq_refl) as (w & R & _ & A).
    exists w. split; [exact R |]. unfold arrays in *. cbn in A. cbn. lia.
  - destruct (run_inv [Wrap t weak; Destroy 0] _ _ _ inv_start ltac:(repeat constructor; apply P) eq_refl) as (w & R & _ & A).
    exists w. split; [exact R |]. unfold arrays in *. cbn in A. cbn. lia.
Qed.
Print Assumptions C90_released_refuted.

(** The tables which the constructor builds are proper. *)
Theorem C90_built : forall rid rule_of ident sort sort_weak actss weak,
  proper (Build (make_tables rid rule_of ident sort sort_weak actss weak) true).
Proof. intros. split; [apply EmitProofs.make_tables_lengths | discriminate]. Qed.
Print Assumptions C90_built.

(** Two tables: one with two states and weak symbols, one with one state. *)
Definition ex_tables : tables :=
  mkTables [[mkEntry Shift 1 3; mkEntry Reduce 0 4]; [mkEntry Accept 0 9]] [[mkEntry Goto 1 7]; []] 9 8 [1%Z] [mkReduce 7 0 2] [(3, 4)%Z].
Definition ex_small : tables := mkTables [[mkEntry Accept 0 9]] [[]] 9 8 [] [] [].

Example C90_nontrivial :
  let l := [Build ex_tables true; Build ex_small false; Copy 0; Assign 0 1; Destroy 1; Copy 2; Assign 2 2; Destroy 2] in
  Forall proper l
  /\ values [] l = Some [Some (mkValue ex_small false true); None; None; Some (mkValue ex_tables true true)]
  /\ (exists w, run start l = Some w /\ alive (w_memory w) = 17)
  /\ (exists w, run start (l ++ [Destroy 3; Destroy 0]) = Some w /\ alive (w_memory w) = 0).
Proof.
  cbv zeta. split; [| split; [| split]].
  - repeat constructor; discriminate.
  - vm_compute. reflexivity.
  - eexists. split; vm_compute; reflexivity.
  - eexists. split; vm_compute; reflexivity.
Qed.
