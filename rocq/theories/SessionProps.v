(** C42: the states of a parser session share their lookahead without loss. *)
From Verif Require Import Base OrdMap RunModel SessionModel SessionSpec SessionProofs.

Section C42.
  Context (T : Type) (source : nat -> option T).
  Notation run := (fun l => do_ops T source l (open T)).
  Notation history := (history T source).

  (** C42, as far as it is true.  After any history of copying, destroying, looking and moving on, in any order and for any
      number of states, nothing undefined has happened, and a state at position [p] sees the symbol [p + k] of the one
      sequence of symbols when it looks [k] symbols ahead (None after the end).  Missing: histories in which a state moves on at the
      end of the input, or without having looked (see C42_end_refuted). *)
  Theorem C42_sees_partial l a : history l a -> exists z, run l = Done z /\ forall h p k, a_at a h = Some p -> exists z', look T source h k z = Done (symbol T source (p + k), z').
  Proof.
    intros H. destruct (history_ok T source l a H) as (z & base & valid & E & R). exists z. split; [exact E|]. intros h p k EP. destruct (look_ok T source base valid a z h p k R EP) as (z' & valid' & L & _). exists z'. exact L.
  Qed.

  (** Every symbol is read once, and none before it is asked for: the number of calls of read is what the furthest look needs, and
      after the end of the input has been seen there are no more. *)
  Theorem C42_reads_once_partial l a z : history l a -> run l = Done z -> z_reads z = reads_for T source (a_far a).
  Proof.
    intros H E. destruct (history_ok T source l a H) as (z1 & base & valid & E1 & R). cbn beta in E. rewrite E in E1. injection E1 as <-. pose proof (rp_eof _ _ _ _ _ _ R) as EO. pose proof (rp_ended _ _ _ _ _ _ R) as EN. destruct (z_eof z).
    - destruct EO as (O1 & O2 & O3). rewrite O2. symmetry. apply (reads_end T source valid); assumption.
    - destruct EO as (O1 & O2). rewrite O1, O2. symmetry. apply reads_all. exact EN.
  Qed.

  (** What is kept is a piece of the sequence that begins at or before the position of every state that lives (so nothing that
      could be needed has gone) and reaches as far as what has been read. *)
  Theorem C42_kept_partial l a z : history l a -> run l = Done z ->
    exists base n, z_look z = symbols T source base n /\ length (z_look z) = n /\ (forall h p, a_at a h = Some p -> base <= p <= base + n) /\ base + n = z_reads z - (if z_eof z then 1 else 0).
  Proof.
    intros H E. destruct (history_ok T source l a H) as (z1 & base & valid & E1 & R). cbn beta in E. rewrite E in E1. injection E1 as <-. pose proof (rp_base _ _ _ _ _ _ R) as BV. exists base, (valid - base). split; [apply (rp_look _ _ _ _ _ _ R)|]. split; [|split].
    - rewrite (rp_look _ _ _ _ _ _ R). apply symbols_length. replace (base + (valid - base)) with valid by lia. apply (rp_ended _ _ _ _ _ _ R).
    - intros h p EP. pose proof (rp_at _ _ _ _ _ _ R h) as X. rewrite EP in X. destruct (find T z h) as [s|]; [|contradiction]. lia.
    - pose proof (rp_eof _ _ _ _ _ _ R) as EO. destruct (z_eof z); lia.
  Qed.

  (** Whenever a state moves on, all the symbols that no state can need any more are dropped. *)
  Theorem C42_trimmed_partial l a h z : history l a -> legal T source (Next h) a -> run (l ++ [Next h]) = Done z ->
    exists k p n, a_at (a_op (Next h) a) k = Some p /\ (forall i q, a_at (a_op (Next h) a) i = Some q -> p <= q) /\ z_look z = symbols T source p n.
  Proof.
    intros H LG E. destruct (history_ok T source l a H) as (z1 & base & valid & E1 & R). destruct (next_ok T source base valid a z1 h R LG) as (z2 & base' & E2 & R2 & k & p & EP & ->). cbn beta in E. rewrite do_ops_app, E1 in E. cbn [bind do_ops do_op] in E. rewrite E2 in E. cbn [bind] in E. injection E as <-.
    exists k, base', (valid - base'). split; [exact EP|]. split; [|apply (rp_look _ _ _ _ _ _ R2)]. intros i q EQ. pose proof (rp_at _ _ _ _ _ _ R2 i) as X. rewrite EQ in X. destruct (find T z2 i) as [s|]; [|contradiction]. lia.
  Qed.
End C42.
Print Assumptions C42_sees_partial.
Print Assumptions C42_reads_once_partial.
Print Assumptions C42_kept_partial.
Print Assumptions C42_trimmed_partial.

(** For concrete histories *)
Fixpoint all_legal {T} (source : nat -> option T) (l : list op) (a : astate) : Prop := match l with [] => True | o :: l => legal T source o a /\ all_legal source l (a_op o a) end.
Lemma all_legal_history T source l : forall l0 a, history T source l0 a -> all_legal source l a -> history T source (l0 ++ l) (fold_left (fun a o => a_op o a) l a).
Proof. induction l as [|o l IH]; intros l0 a H OK; [rewrite app_nil_r; exact H|]. destruct OK as [O OK]. replace (l0 ++ o :: l) with ((l0 ++ [o]) ++ l) by (rewrite <- app_assoc; reflexivity). cbn [fold_left]. apply IH; [apply history_more; assumption|exact OK]. Qed.

(** Five symbols; a state and two copies, one of them destroyed before the state it was copied from; guards that look ahead *)
Definition five (n : nat) : option nat := if n <? 5 then Some (n * 10) else None.
Definition schedule : list op := [Look 0 2; Clone 0; Next 0; Look 0 0; Next 0; Clone 1; Look 2 0; Next 2; Close 1; Look 0 9; Next 2].
Example C42_nontrivial : exists a z, history nat five schedule a /\ do_ops nat five schedule (open nat) = Done z /\ a_at a 0 = Some 2 /\ a_at a 1 = None /\ a_at a 2 = Some 2 /\ a_far a = 12 /\ z_reads z = 6 /\ z_look z = [20; 30; 40] /\
  (exists z', look nat five 2 1 z = Done (Some 30, z')) /\ exists z', look nat five 0 3 z = Done (None, z').
Proof.
  exists (fold_left (fun a o => a_op o a) schedule start). destruct (do_ops nat five schedule (open nat)) as [z| |] eqn:E; [|vm_compute in E; discriminate E|vm_compute in E; discriminate E]. exists z. split; [|vm_compute in E; injection E as <-; repeat split; eexists; reflexivity].
  apply (all_legal_history nat five schedule []); [constructor|]. cbn [schedule all_legal].
  repeat match goal with |- _ /\ _ => split | |- True => exact Logic.I | |- legal _ _ (Next _) _ => eexists; split; [reflexivity|]; split; [vm_compute; lia|discriminate] | |- legal _ _ _ _ => discriminate end.
Qed.

(** At the end of the input, a state that looks and moves on erases a symbol that is not there, for any source. *)
Theorem C42_end_refuted : forall T (source : nat -> option T), source 0 = None -> exists z, do_ops T source [Look 0 0] (open T) = Done z /\ look T source 0 0 z = Done (None, z) /\ next T 0 z = Undefined.
Proof. intros T source E. cbn. rewrite E. cbn. eexists. split; [reflexivity|]. split; reflexivity. Qed.
Print Assumptions C42_end_refuted.
