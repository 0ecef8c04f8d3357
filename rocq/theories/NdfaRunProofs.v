(** Running automata without silent transitions, for concrete examples and refutations. *)
From Verif Require Import Base OrdMap SymbolSetModel SymbolSetSpec SymbolSetProofs.
From Verif Require Import SymbolMapModel SymbolMapSpec SymbolMapProofs NdfaModel NdfaSpec NdfaProofs.
Local Open Scope Z_scope.

Section Run.
  Context {A : Type}.
  Implicit Types d : ndfa A.

  Fixpoint reach d (q : nat) (w : list Z) : list nat :=
    match w with
    | [] => [q]
    | x :: w => flat_map (fun t : transition => if contains (sm_get (n_symbols d) (fst t)) x then reach d (snd t) w else []) (get_state d q)
    end.

  Definition silent_free d : bool :=
    forallb (fun st => forallb (fun t : transition => match sm_get (n_symbols d) (fst t) with [] => false | _ => true end) st) (n_states d).

  Lemma silent_free_spec d q id t : silent_free d = true -> In (id, t) (get_state d q) -> sm_get (n_symbols d) id <> [].
  Proof.
    intros H Hin E. unfold silent_free in H. rewrite forallb_forall in H.
    assert (Q : In (get_state d q) (n_states d)).
    { destruct (Nat.lt_ge_cases q (count_states d)) as [Hq|Hq]; [apply nth_In; exact Hq|]. rewrite get_state_out in Hin by exact Hq. destruct Hin. }
    specialize (H _ Q). rewrite forallb_forall in H. specialize (H _ Hin). cbn [fst] in H. rewrite E in H. discriminate.
  Qed.

  Lemma reach_spec d : silent_free d = true -> forall w q q', path d q w q' <-> In q' (reach d q w).
  Proof.
    intros SF. induction w as [|x w IH]; intros q q'; cbn [reach].
    - split.
      + intros H. inversion H as [|? ? ? ? ? Hin He|]; subst; [cbn; auto|]. exfalso. eapply silent_free_spec; eauto.
      + intros [->|[]]. constructor.
    - rewrite in_flat_map. split.
      + intros H. inversion H as [|? ? ? ? ? Hin He|? id r ? ? ? Hin Hc Hp]; subst; [exfalso; eapply silent_free_spec; eauto|].
        exists (id, r). split; [exact Hin|]. cbn [fst snd]. rewrite Hc. apply IH. exact Hp.
      + intros ([id r] & Hin & H). cbn [fst snd] in H. destruct (contains (sm_get (n_symbols d) id) x) eqn:E; [|destruct H].
        eapply path_sym; eauto. apply IH. exact H.
  Qed.

  Lemma accepts_spec d : silent_free d = true -> forall q w a, accepts d q w a <-> In a (flat_map (actions_for_state d) (reach d q w)).
  Proof.
    intros SF q w a. unfold accepts. rewrite in_flat_map. split; intros (q' & H1 & H2); exists q'; (split; [apply (reach_spec d SF); exact H1|exact H2]).
  Qed.
End Run.

(** The two counterexamples to compaction. *)
From Verif Require Import NdfaReduceModel.

Definition ca : symbol_set := [mkR 97 98].
Definition cb : symbol_set := [mkR 98 99].
Definition cc : symbol_set := [mkR 99 100].

(** a(aa)*: state 1 accepts, state 2 does not *)
Definition odd_ops : list (@op Z) :=
  [OpState; OpState; OpTrans 0 ca 1; OpTrans 1 ca 2; OpTrans 2 ca 1; OpAccept 1 7].
(** (abc)*, accepting only in its initial state *)
Definition cycle_ops : list (@op Z) :=
  [OpState; OpState; OpTrans 0 ca 1; OpTrans 1 cb 2; OpTrans 2 cc 0; OpAccept 0 7].

Lemma valid_ops (ops : list (@op Z)) : forallb (fun o => match o with OpTrans _ s _ => normal_b s | _ => true end) ops = true -> Forall op_valid ops.
Proof.
  intros H. rewrite forallb_forall in H. apply Forall_forall. intros o Ho. specialize (H o Ho). destruct o; cbn; auto. apply normal_b_sound. exact H.
Qed.

Definition odd_d := Eval vm_compute in build odd_ops.
Definition odd_r := Eval vm_compute in match to_compact_dfa 20 odd_d [0%nat] with Some r => r | None => ndfa_new end.
Definition cycle_d := Eval vm_compute in build cycle_ops.
Definition cycle_r := Eval vm_compute in match to_compact_dfa 20 cycle_d [0%nat] with Some r => r | None => ndfa_new end.

Lemma ops_facts (ops : list (@op Z)) d : Forall op_valid ops -> build ops = d -> verify_no_symbol_overlap d = true ->
  ndfa_ok d /\ disjoint_symbols d.
Proof.
  intros V <- H. pose proof (build_ok_lemma ops V) as OK. split; [exact OK|]. apply verify_no_overlap_spec; assumption.
Qed.

Lemma compact_refuted_extra :
  exists (ops : list (@op Z)) fuel r w a,
    let d := build ops in
    Forall op_valid ops /\ disjoint_symbols d /\ verify_is_dfa d = true /\
    to_compact_dfa fuel d [0%nat] = Some r /\ accepts r 0 w a /\ ~ accepts d 0 w a.
Proof.
  exists odd_ops, 20%nat, odd_r, [97; 97], 7. assert (V : Forall op_valid odd_ops) by (apply valid_ops; reflexivity).
  assert (E : build odd_ops = odd_d) by (vm_compute; reflexivity). cbv zeta. rewrite E.
  destruct (ops_facts _ _ V E ltac:(vm_compute; reflexivity)) as [OK DJ].
  split; [exact V|]. split; [exact DJ|]. split; [vm_compute; reflexivity|]. split; [vm_compute; reflexivity|].
  rewrite !accepts_spec by (vm_compute; reflexivity). vm_compute. split; [auto|tauto].
Qed.

Lemma compact_refuted_missing :
  exists (ops : list (@op Z)) fuel r w a,
    let d := build ops in
    Forall op_valid ops /\ disjoint_symbols d /\ verify_is_dfa d = true /\
    to_compact_dfa fuel d [0%nat] = Some r /\ ~ accepts r 0 w a /\ accepts d 0 w a.
Proof.
  exists cycle_ops, 20%nat, cycle_r, [97; 98; 99], 7. assert (V : Forall op_valid cycle_ops) by (apply valid_ops; reflexivity).
  assert (E : build cycle_ops = cycle_d) by (vm_compute; reflexivity). cbv zeta. rewrite E.
  destruct (ops_facts _ _ V E ltac:(vm_compute; reflexivity)) as [OK DJ].
  split; [exact V|]. split; [exact DJ|]. split; [vm_compute; reflexivity|]. split; [vm_compute; reflexivity|].
  rewrite !accepts_spec by (vm_compute; reflexivity). vm_compute. split; [tauto|auto].
Qed.
