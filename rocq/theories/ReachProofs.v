(** Every state of the result of the subset construction can be reached. *)
From Verif Require Import Base OrdMap SymbolSetModel SymbolSetSpec SymbolSetProofs SymbolMapModel SymbolMapSpec SymbolMapProofs NdfaModel NdfaSpec NdfaProofs ToDfaProofs.
Local Open Scope Z_scope.

Section Reach.
  Context {A : Type} (eager : A -> bool).

  Definition linked (w : dfa_work (A := A)) : Prop :=
    (forall i, In i (w_stack w) -> (i < length (w_states w))%nat) /\
    forall i, (1 <= i < length (w_states w))%nat -> exists j s, (j < i)%nat /\ In (s, i) (nth j (w_states w) []).

  Lemma linked_edge from w e : linked w -> (from < length (w_states w))%nat -> linked (dfa_edge from w e) /\ (length (w_states w) <= length (w_states (dfa_edge from w e)))%nat.
  Proof.
    intros (S & L) F. destruct e as [sym set]. unfold dfa_edge. destruct (mfind setlex set (w_map w)) as [t|].
    - split; [|cbn [w_states]; rewrite set_nth_length; lia]. split; cbn [w_states w_stack]; rewrite set_nth_length; [exact S|].
      intros i I. destruct (L i I) as (j & s & J & K). exists j, s. split; [exact J|]. destruct (Nat.eq_dec j from) as [->|N].
      + rewrite set_nth_same by exact F. apply (sins_in _ trans_strict). auto.
      + rewrite set_nth_other by exact N. exact K.
    - assert (E : length (set_nth from (sins trans_ltb (sym, length (w_states w)) (nth from (w_states w ++ [[]]) [])) (w_states w ++ [[]])) = Datatypes.S (length (w_states w))).
      { rewrite set_nth_length, app_length. cbn. lia. }
      split; [|cbn [w_states]; lia]. split; cbn [w_states w_stack].
      + intros i [<-|I]; [lia|]. apply S in I. lia.
      + intros i I. destruct (Nat.eq_dec i (length (w_states w))) as [->|N].
        * exists from, sym. split; [exact F|]. rewrite set_nth_same by (rewrite app_length; lia). apply (sins_in _ trans_strict). auto.
        * destruct (L i ltac:(lia)) as (j & s & J & K). exists j, s. split; [exact J|]. destruct (Nat.eq_dec j from) as [->|N'].
          -- rewrite set_nth_same by (rewrite app_length; lia). apply (sins_in _ trans_strict). right. rewrite nth_app_nil. exact K.
          -- rewrite set_nth_other by exact N'. rewrite nth_app_nil. exact K.
  Qed.

  Lemma linked_edges from : forall edges w, linked w -> (from < length (w_states w))%nat -> linked (fold_left (dfa_edge from) edges w).
  Proof.
    induction edges as [|e edges IH]; intros w L F; cbn [fold_left]; [exact L|]. destruct (linked_edge from w e L F) as (L1 & E). apply IH; [exact L1|lia].
  Qed.

  Lemma linked_loop d : forall fuel w w', linked w -> dfa_loop eager fuel d w = Some w' -> linked w'.
  Proof.
    induction fuel as [|fuel IH]; intros w w' L; cbn [dfa_loop]; destruct (w_stack w) as [|id stack] eqn:ST; [intros E; injection E as <-; exact L|discriminate|intros E; injection E as <-; exact L|].
    destruct L as (S & L). assert (F : (id < length (w_states w))%nat) by (apply S; rewrite ST; left; reflexivity).
    set (w1 := mkW (w_states w) (w_sets w) (w_map w) (fold_left (fun acc a => acc_push acc id a) (dfa_actions d (nth id (w_sets w) [])) (w_accept w)) stack).
    assert (L1 : linked w1) by (split; [intros i I; apply S; rewrite ST; right; exact I|exact L]).
    destruct (existsb eager (dfa_actions d (nth id (w_sets w) []))); [apply IH, L1|].
    destruct (close_all d (dfa_targets d (nth id (w_sets w) []))) as [edges|]; [|discriminate]. apply IH. apply linked_edges; [exact L1|exact F].
  Qed.

  Lemma to_dfa_reach d q0 fuel r : to_dfa eager fuel d [q0] = Some r -> ndfa_ok r -> deterministic r ->
    forall q, (q < count_states r)%nat -> exists w, path r 0 w q.
  Proof.
    unfold to_dfa. cbn [dfa_initials]. unfold dfa_initial at 1. destruct (closure d [q0]) as [s|]; [|discriminate].
    set (w0 := mkW _ _ _ _ _). destruct (dfa_loop eager fuel d w0) as [w'|] eqn:E; [|discriminate].
    intros X OK DT. assert (L0 : linked w0) by (split; cbn; [intros i [<-|[]]; lia|lia]). pose proof (linked_loop d fuel w0 w' L0 E) as (_ & L).
    injection X as X. assert (EQ : forall q, get_state r q = nth q (w_states w') []) by (intros q; subst r; reflexivity).
    assert (EC : count_states r = length (w_states w')) by (subst r; reflexivity). clear X.
    induction q as [q IH] using lt_wf_ind. intros Q. destruct q as [|q]; [exists []; constructor|].
    destruct (L (Datatypes.S q) ltac:(lia)) as (j & i & J & K). destruct (IH j J ltac:(lia)) as (w & P). rewrite <- EQ in K.
    assert (C : exists x, contains (sm_get (n_symbols r) i) x = true).
    { destruct (sm_get (n_symbols r) i) as [|b s'] eqn:G; [destruct (proj1 DT _ _ _ K G)|]. destruct (ok_inv _ OK) as (_ & I).
      assert (N : wf (b :: s')).
      { rewrite <- G. unfold sm_get. destruct ((i <? 0) || (Z.of_nat (length (sm_sets (n_symbols r))) <=? i)) eqn:B; [split; constructor|].
        rewrite Forall_forall in I. apply I. apply nth_In. lia. }
      exists (lo b). apply (contains_spec (b :: s')); [exact N|]. exists b. split; [left; reflexivity|]. destruct N as (N1 & _). inversion N1 as [|? ? NE]; subst. unfold ne in NE. unfold in_range. lia. }
    destruct C as (x & C). exists (w ++ [x]). clear - P K C. induction P as [q'|q' id r' w q'' H1 H2 P IH|q' id r' y w q'' H1 H2 P IH]; cbn [app].
    - eapply path_sym; [exact K|exact C|constructor].
    - eapply path_eps; [exact H1|exact H2|]. apply IH, K.
    - eapply path_sym; [exact H1|exact H2|]. apply IH, K.
  Qed.
End Reach.
