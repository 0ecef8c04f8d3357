(** Property theorems C09 (DFA compaction) and C10 (merging symbol sets). *)
From Verif Require Import Base OrdMap SymbolSetModel SymbolSetSpec SymbolSetProofs.
From Verif Require Import SymbolMapModel SymbolMapSpec NdfaModel NdfaSpec NdfaProofs.
From Verif Require Import NdfaReduceModel NdfaReduceSpec CompactProofs MergeProofs NdfaRunProofs.
Local Open Scope Z_scope.

(** ** C09.  The full statement - the compacted DFA accepts the same words with the same
    actions, for every DFA - is false: compaction may put an accepting state together with
    non-accepting ones, so that more is accepted, ... *)
Theorem C09_compact_refuted :
  exists (ops : list (@op Z)) fuel r w a,
    let d := build ops in
    Forall op_valid ops /\ disjoint_symbols d /\ verify_is_dfa d = true /\
    to_compact_dfa fuel d [0%nat] = Some r /\ accepts r 0 w a /\ ~ accepts d 0 w a.
Proof. exact compact_refuted_extra. Qed.
Print Assumptions C09_compact_refuted.

(** ... and it may lose states, so that less is accepted. *)
Theorem C09_compact_missing_refuted :
  exists (ops : list (@op Z)) fuel r w a,
    let d := build ops in
    Forall op_valid ops /\ disjoint_symbols d /\ verify_is_dfa d = true /\
    to_compact_dfa fuel d [0%nat] = Some r /\ ~ accepts r 0 w a /\ accepts d 0 w a.
Proof. exact compact_refuted_missing. Qed.
Print Assumptions C09_compact_missing_refuted.

(** What holds: some non-initial state accepts, and the first such state [f] is told apart
    from every non-accepting non-initial state by some word (see [told_apart]). *)
Theorem C09_compact_partial : forall A (d : ndfa A) init f fuel r,
  ndfa_ok d -> disjoint_symbols d -> verify_is_dfa d = true ->
  NoDup init -> (forall q, In q init -> (q < count_states d)%nat) ->
  first_accepting d init f ->
  (forall p, (p < count_states d)%nat -> ~ In p init -> ~ accepting d p -> told_apart d init f p) ->
  to_compact_dfa fuel d init = Some r ->
  ndfa_ok r /\ verify_is_dfa r = true /\ n_symbols r = n_symbols d /\ (count_states r <= count_states d)%nat /\
  forall k q0, nth_error init k = Some q0 -> forall w a, accepts r k w a <-> accepts d q0 w a.
Proof. exact @compact_correct. Qed.
Print Assumptions C09_compact_partial.

Theorem C09_compact_terminates_partial : forall A (d : ndfa A) init f,
  NoDup init -> (forall q, In q init -> (q < count_states d)%nat) -> first_accepting d init f ->
  exists fuel r, to_compact_dfa fuel d init = Some r.
Proof. exact @compact_terminates. Qed.
Print Assumptions C09_compact_terminates_partial.

(** A DFA for ab|cb with two states for "a letter read"; compaction merges them. *)
Definition two_ops : list (@op Z) :=
  [OpState; OpState; OpState; OpTrans 0 ca 1; OpTrans 0 cc 2; OpTrans 1 cb 3; OpTrans 2 cb 3; OpAccept 3 7].
Definition two_d := Eval vm_compute in build two_ops.

Example C09_example_hypotheses :
  ndfa_ok two_d /\ disjoint_symbols two_d /\ verify_is_dfa two_d = true /\ first_accepting two_d [0%nat] 3 /\
  (forall p, (p < count_states two_d)%nat -> ~ In p [0%nat] -> ~ accepting two_d p -> told_apart two_d [0%nat] 3 p) /\
  exists r, to_compact_dfa 20 two_d [0%nat] = Some r /\ count_states r = 3%nat /\ count_states two_d = 4%nat /\
     accepts r 0 [99; 98] 7.
Proof.
  assert (E : build two_ops = two_d) by (vm_compute; reflexivity).
  destruct (ops_facts two_ops two_d ltac:(apply valid_ops; reflexivity) E ltac:(vm_compute; reflexivity)) as [OK DJ].
  assert (AC : forall q, accepting two_d q <-> q = 3%nat).
  { intros q. unfold accepting. destruct q as [|[|[|[|q]]]]; vm_compute; split; intros; try congruence; lia. }
  assert (SF : silent_free two_d = true) by (vm_compute; reflexivity).
  split; [exact OK|]. split; [exact DJ|]. split; [vm_compute; reflexivity|]. split; [|split].
  - split; [vm_compute; lia|]. split; [vm_compute; intros [X|[]]; discriminate|]. split; [apply AC; reflexivity|].
    intros q Hq _ H. apply AC in H. lia.
  - intros p Hp Hi Ha. rewrite AC in Ha. change (count_states two_d) with 4%nat in Hp.
    exists [98]. right. left. split.
    + intros (q & H). apply (reach_spec two_d SF) in H. vm_compute in H. exact H.
    + exists 3%nat. apply (reach_spec two_d SF). destruct p as [|[|[|[|p]]]]; try lia; [destruct Hi; cbn; auto| |]; vm_compute; auto.
  - eexists. split; [vm_compute; reflexivity|]. split; [reflexivity|]. split; [reflexivity|].
    apply accepts_spec; [vm_compute; reflexivity|]. vm_compute. auto.
Qed.

(** ** C10.  Merging symbol sets: the result has the same states, reads the same words
    between the same states, has the same actions; and two characters share a set of the
    result exactly if no state of the original tells them apart. *)
Theorem C10_merged_symbols : forall A (d : ndfa A),
  ndfa_ok d -> disjoint_symbols d -> verify_is_dfa d = true ->
  exists r, to_ndfa_with_merged_symbols d = Some r /\
    ndfa_ok r /\ disjoint_symbols r /\ verify_is_dfa r = true /\ count_states r = count_states d /\
    (forall q w q', path r q w q' <-> path d q w q') /\
    (forall q, actions_for_state r q = actions_for_state d q) /\
    (forall x y, (exists i, contains (sm_get (n_symbols d) i) x = true) -> (exists i, contains (sm_get (n_symbols d) i) y = true) ->
      (exists c, contains (sm_get (n_symbols r) c) x = true /\ contains (sm_get (n_symbols r) c) y = true) <->
      (forall q q', path d q [x] q' <-> path d q [y] q')).
Proof. exact @merge_correct. Qed.
Print Assumptions C10_merged_symbols.

(** (a|b)c: a and b are merged *)
Definition merge_ops : list (@op Z) :=
  [OpState; OpState; OpTrans 0 ca 1; OpTrans 0 cb 1; OpTrans 1 cc 2; OpAccept 2 7].
Example C10_example :
  let d := build merge_ops in
  ndfa_ok d /\ disjoint_symbols d /\ verify_is_dfa d = true /\ sm_count (n_symbols d) = 3 /\
  exists r, to_ndfa_with_merged_symbols d = Some r /\ sm_sets (n_symbols r) = [[mkR 97 99]; [mkR 99 100]].
Proof.
  destruct (ops_facts merge_ops _ ltac:(apply valid_ops; reflexivity) eq_refl ltac:(vm_compute; reflexivity)) as [OK DJ].
  cbv zeta. split; [exact OK|]. split; [exact DJ|]. split; [vm_compute; reflexivity|]. split; [vm_compute; reflexivity|].
  eexists. split; vm_compute; reflexivity.
Qed.
