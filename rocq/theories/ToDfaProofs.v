(** Proofs about the subset construction. *)
From Coq Require Permutation.
From Verif Require Import Base OrdMap SymbolSetModel SymbolSetSpec SymbolSetProofs.
From Verif Require Import SymbolMapModel SymbolMapSpec SymbolMapProofs DedupProofs NdfaModel NdfaSpec NdfaProofs.
Local Open Scope Z_scope.

Section Proofs.
  Context {A : Type} (eager : A -> bool).
  Implicit Types d : ndfa A.

  (** a closed, sorted set of states of [d] *)
  Record cset d (S : list nat) : Prop := {
    cs_sorted : ssorted Nat.ltb S;
    cs_bound : forall q, In q S -> (q < count_states d)%nat;
    cs_closed : forall s q, In s S -> path d s [] q -> In q S }.

  Lemma closure_cset d S0 : ndfa_ok d -> ssorted Nat.ltb S0 -> (forall q, In q S0 -> (q < count_states d)%nat) ->
    exists T, closure d S0 = Some T /\ cset d T /\ (forall q, In q T <-> exists s, In s S0 /\ path d s [] q).
  Proof.
    intros OK Hs Hb. destruct (closure_spec d S0 OK Hs Hb) as (T & H1 & H2 & H3 & H4).
    exists T. split; [exact H1|]. split; [|exact H4]. constructor; auto.
    intros s q Hin Hp. apply H4 in Hin as (s0 & Hin & Hp0). apply H4. exists s0. split; [exact Hin|].
    eapply epath_trans; eauto.
  Qed.

  (** * The targets of a set *)

  Definition tlook (m : list (Z * list nat)) (i : Z) : list nat :=
    match mfind Z.ltb i m with Some s => s | None => [] end.

  Definition tstep d (m : list (Z * list nat)) (t : transition) :=
    if fst t =? eps_id d then m
    else mset Z.ltb (fst t) (sins Nat.ltb (snd t) (tlook m (fst t))) m.

  Record tinv d (R : Z -> nat -> Prop) (m : list (Z * list nat)) : Prop := {
    ti_sorted : msorted Z.ltb m;
    ti_set : forall i s, In (i, s) m -> ssorted Nat.ltb s /\ s <> [] /\ i <> eps_id d /\ (forall r, In r s <-> R i r);
    ti_dom : forall i r, i <> eps_id d -> R i r -> exists s, In (i, s) m }.

  Lemma tinv_ext d R R' m : (forall i r, i <> eps_id d -> (R i r <-> R' i r)) -> tinv d R m -> tinv d R' m.
  Proof.
    intros H [H1 H2 H3]. constructor; [exact H1| |].
    - intros i s Hin. destruct (H2 _ _ Hin) as (Ha & Hb & Hc & Hd). repeat split; auto; intros Hr.
      + apply H; [exact Hc|]. apply Hd. exact Hr.
      + apply Hd. apply H; auto.
    - intros i r Hi Hr. apply (H3 i r Hi). apply H; auto.
  Qed.

  Lemma tstep_inv d R m t : tinv d R m -> tinv d (fun i r => R i r \/ (i, r) = t) (tstep d m t).
  Proof.
    intros [H1 H2 H3]. destruct t as [j r0]. unfold tstep. cbn [fst snd]. destruct (Z.eqb_spec j (eps_id d)) as [->|Hj].
    - apply (tinv_ext d R); [|constructor; auto]. intros i r Hi. split; [auto|]. intros [H|H]; [exact H|]. inv H. congruence.
    - constructor.
      + apply mset_sorted; [apply Zltb_strict|exact H1].
      + intros i s Hin. apply (mset_in _ Zltb_strict _ H1) in Hin as [E|[Hin Hn]].
        * inv E. assert (L : ssorted Nat.ltb (tlook m j) /\ forall r, In r (tlook m j) <-> R j r).
          { unfold tlook. destruct (mfind Z.ltb j m) as [s|] eqn:F.
            - apply (mfind_in _ Zltb_strict _ H1) in F. destruct (H2 _ _ F) as (Ha & _ & _ & Hd). auto.
            - split; [constructor|]. intros r. split; [intros []|]. intros Hr. destruct (H3 j r Hj Hr) as [s Hs].
              apply (mfind_in _ Zltb_strict _ H1) in Hs. congruence. }
          destruct L as [L1 L2]. split; [apply sins_sorted; [apply natltb_strict|exact L1]|].
          split; [intros E; assert (X : In r0 (sins Nat.ltb r0 (tlook m j))) by (apply sins_in; [apply natltb_strict|auto]); rewrite E in X; destruct X|].
          split; [exact Hj|]. intros r. rewrite (sins_in _ natltb_strict), L2. split; [intros [->|H]; auto|]. intros [H|H]; [auto|]. inv H. auto.
        * cbn [fst] in Hn. destruct (H2 _ _ Hin) as (Ha & Hb & Hc & Hd). repeat split; auto; intros Hr.
          -- left. apply Hd. exact Hr.
          -- destruct Hr as [Hr|Hr]; [apply Hd; exact Hr|]. inv Hr. congruence.
      + intros i r Hi [Hr|Hr].
        * destruct (Z.eq_dec i j) as [->|Hn].
          -- eexists. apply (mset_in _ Zltb_strict _ H1). left. reflexivity.
          -- destruct (H3 i r Hi Hr) as [s Hs]. exists s. apply (mset_in _ Zltb_strict _ H1). right. auto.
        * inv Hr. eexists. apply (mset_in _ Zltb_strict _ H1). left. reflexivity.
  Qed.

  Lemma dfa_targets_inv d S : tinv d (fun i r => exists q, In q S /\ In (i, r) (get_state d q)) (dfa_targets d S).
  Proof.
    assert (G1 : forall l R m, tinv d R m -> tinv d (fun i r => R i r \/ In (i, r) l) (fold_left (tstep d) l m)).
    { induction l as [|t l IH]; intros R m H; cbn [fold_left].
      - apply (tinv_ext d R); [|exact H]. cbn. tauto.
      - eapply tinv_ext; [|apply IH; apply tstep_inv; exact H]. cbn [In]. intros i r _. intuition congruence. }
    assert (G2 : forall S R m, tinv d R m -> tinv d (fun i r => R i r \/ exists q, In q S /\ In (i, r) (get_state d q))
                (fold_left (fun m q => fold_left (tstep d) (get_state d q) m) S m)).
    { clear S. induction S as [|q S IH]; intros R m H; cbn [fold_left].
      - apply (tinv_ext d R); [|exact H]. intros i r _. split; [auto|]. intros [Hr|(q & [] & _)]; exact Hr.
      - eapply tinv_ext; [|apply IH; apply G1; exact H]. intros i r _. cbn [In]. split.
        + intros [[Hr|Hr]|(q' & H1 & H2)]; [auto|right; exists q; auto|right; exists q'; auto].
        + intros [Hr|(q' & [<-|H1] & H2)]; [auto|auto|right; exists q'; auto]. }
    assert (T0 : tinv d (fun _ _ => False) []).
    { constructor; [constructor|intros ? ? []|intros ? ? _ []]. }
    eapply tinv_ext; [|exact (G2 S _ _ T0)]. cbn. intros. tauto.
  Qed.

  Lemma close_all_spec d m : ndfa_ok d ->
    (forall i s, In (i, s) m -> ssorted Nat.ltb s /\ forall q, In q s -> (q < count_states d)%nat) ->
    exists edges, close_all d m = Some edges /\ map fst edges = map fst m /\
      (forall i T, In (i, T) edges -> exists s, In (i, s) m /\ closure d s = Some T) /\
      (forall i s, In (i, s) m -> exists T, In (i, T) edges /\ closure d s = Some T).
  Proof.
    intros OK. induction m as [|[i s] m IH]; intros H; cbn [close_all].
    - exists []. repeat split; intros ? ? [].
    - destruct (H i s (or_introl eq_refl)) as [H1 H2]. destruct (closure_cset d s OK H1 H2) as (T & ET & _ & _).
      destruct IH as (edges & Ee & E1 & E2 & E3); [intros; eapply H; right; eassumption|].
      rewrite ET, Ee. exists ((i, T) :: edges). split; [reflexivity|]. split; [cbn; congruence|]. split.
      + intros j U [E|Hin]; [inv E; exists s; cbn; auto|]. destruct (E2 _ _ Hin) as (s' & H3 & H4). exists s'. cbn; auto.
      + intros j s' [E|Hin]; [inv E; exists T; cbn; auto|]. destruct (E3 _ _ Hin) as (U & H3 & H4). exists U. cbn; auto.
  Qed.

  Lemma NoDup_msorted {V} (m : list (Z * V)) : msorted Z.ltb m -> NoDup (map fst m).
  Proof.
    induction m as [|[i v] m IH]; intros H; cbn; [constructor|]. apply msorted_cons in H as [H1 H2]. constructor; [|auto].
    intros Hin. apply in_map_iff in Hin as ([j w] & E & Hin). cbn in E. subst j. specialize (H2 _ Hin). cbn in H2. lia.
  Qed.

  Definition edges_of d (S : list nat) (edges : list (Z * list nat)) : Prop :=
    NoDup (map fst edges) /\
    (forall i T, In (i, T) edges -> cset d T /\ T <> [] /\ i <> eps_id d /\ 0 <= i < sm_count (n_symbols d) /\
        forall q, In q T <-> exists s r, In s S /\ In (i, r) (get_state d s) /\ path d r [] q) /\
    (forall s i r, In s S -> In (i, r) (get_state d s) -> i <> eps_id d -> exists T, In (i, T) edges).

  Lemma edges_exist d S : ndfa_ok d -> exists edges, close_all d (dfa_targets d S) = Some edges /\ edges_of d S edges.
  Proof.
    intros OK. pose proof (dfa_targets_inv d S) as [T1 T2 T3].
    assert (HB : forall i s, In (i, s) (dfa_targets d S) -> ssorted Nat.ltb s /\ forall q, In q s -> (q < count_states d)%nat).
    { intros i s Hin. destruct (T2 _ _ Hin) as (Ha & _ & _ & Hd). split; [exact Ha|]. intros q Hq. apply Hd in Hq as (q' & _ & Hq).
      eapply ok_trans; eauto. }
    destruct (close_all_spec d _ OK HB) as (edges & E0 & E1 & E2 & E3). exists edges. split; [exact E0|].
    split; [rewrite E1; apply NoDup_msorted; exact T1|]. split.
    - intros i T Hin. destruct (E2 _ _ Hin) as (s & Hs & Hc). destruct (T2 _ _ Hs) as (Ha & Hb & Hc' & Hd).
      destruct (closure_cset d s OK) as (T' & ET & CT & IT); [apply (HB _ _ Hs)|apply (HB _ _ Hs)|].
      rewrite Hc in ET. inv ET. split; [exact CT|].
      destruct s as [|r s]; [congruence|]. assert (Hr : In r (r :: s)) by (cbn; auto).
      split; [intros E; assert (X : In r T') by (apply IT; exists r; split; [exact Hr|constructor]); rewrite E in X; destruct X|].
      split; [exact Hc'|]. split; [apply Hd in Hr as (q & _ & Hq); eapply ok_trans; eauto|].
      intros q. rewrite IT. split.
      + intros (r' & H1 & H2). apply Hd in H1 as (s' & H3 & H4). eauto.
      + intros (s' & r' & H1 & H2 & H3). exists r'. split; [|exact H3]. apply Hd. eauto.
    - intros s i r Hs Hin Hi. destruct (T3 i r Hi) as [T HT]; [eauto|]. destruct (E3 _ _ HT) as (T' & H1 & _). eauto.
  Qed.

  (** * The work list *)

  Record core d (K : nat) (w : dfa_work) : Prop := {
    c_len : length (w_states w) = length (w_sets (A:=A) w);
    c_P : forall i S, nth_error (w_sets w) i = Some S -> cset d S;
    c_msort : msorted setlex (w_map w);
    c_mval : forall S i, mfind setlex S (w_map w) = Some i -> nth_error (w_sets w) i = Some S;
    c_min : forall i S, nth_error (w_sets w) i = Some S -> exists j, mfind setlex S (w_map w) = Some j;
    c_nd : NoDup (w_stack w);
    c_stk : forall i, In i (w_stack w) -> (i < length (w_sets w))%nat;
    c_cnt : (length (w_sets w) <= K + length (w_map w))%nat }.

  (** what a run of [dfa_edge] over [edges] does *)
  Record extends (from : nat) (edges : list (Z * list nat)) (w w2 : dfa_work (A:=A)) : Prop := {
    e_sets : exists t, w_sets w2 = w_sets w ++ t;
    e_acc : w_accept w2 = w_accept w;
    e_map : forall S i, mfind setlex S (w_map w) = Some i -> mfind setlex S (w_map w2) = Some i;
    e_stack : forall i, In i (w_stack w2) <-> In i (w_stack w) \/ (length (w_sets w) <= i < length (w_sets w2))%nat;
    e_other : forall i, i <> from -> nth i (w_states w2) [] = nth i (w_states w) [];
    e_sorted : ssorted trans_ltb (nth from (w_states w) []) -> ssorted trans_ltb (nth from (w_states w2) []);
    e_from : forall i t, In (i, t) (nth from (w_states w2) []) <->
       In (i, t) (nth from (w_states w) []) \/ exists T, In (i, T) edges /\ mfind setlex T (w_map w2) = Some t;
    e_all : forall i T, In (i, T) edges -> exists t, mfind setlex T (w_map w2) = Some t }.

  Lemma nth_app_nil {X} (l : list (list X)) i : nth i (l ++ [[]]) [] = nth i l [].
  Proof.
    destruct (Nat.lt_ge_cases i (length l)) as [H|H].
    - apply app_nth1. exact H.
    - rewrite app_nth2 by exact H. rewrite (nth_overflow l) by exact H.
      destruct (i - length l)%nat as [|[|k]]; reflexivity.
  Qed.

  Lemma minsert_length {V} S (v : V) m : mfind setlex S m = None -> length (minsert setlex S v m) = Datatypes.S (length m).
  Proof.
    induction m as [|[k v'] m IH]; cbn [mfind minsert]; [reflexivity|].
    destruct (setlex k S); [cbn; auto|]. destruct (setlex S k); [reflexivity|discriminate].
  Qed.

  Lemma dfa_edge_core d K from w i T : core d K w -> (from < length (w_sets w))%nat -> cset d T ->
    core d K (dfa_edge from w (i, T)) /\ extends from [(i, T)] w (dfa_edge from w (i, T)).
  Proof.
    intros C Hf HT. pose proof C as [C1 C2 C3 C4 C5 C6 C7 C8]. unfold dfa_edge.
    destruct (mfind setlex T (w_map w)) as [t|] eqn:F.
    - split.
      + constructor; cbn [w_states w_sets w_map w_accept w_stack]; auto. rewrite set_nth_length. exact C1.
      + constructor; cbn [w_states w_sets w_map w_accept w_stack].
        * exists []. rewrite app_nil_r. reflexivity.
        * reflexivity.
        * auto.
        * intros k. split; [auto|]. intros [H|H]; [exact H|lia].
        * intros k Hk. apply set_nth_other. exact Hk.
        * rewrite set_nth_same by lia. intros HH; apply sins_sorted; [apply trans_strict|exact HH].
        * intros k u. rewrite set_nth_same by lia. rewrite (sins_in _ trans_strict). split.
          -- intros [E|H]; [inv E; right; exists T; cbn; auto|auto].
          -- intros [H|(T' & [E|[]] & HT')]; [auto|]. inv E. left. congruence.
        * intros k T' [E|[]]. inv E. eauto.
    - assert (NE : forall k S, nth_error (w_sets w) k = Some S -> S <> T).
      { intros k S Hk ->. destruct (C5 _ _ Hk). congruence. }
      assert (FM : forall S, mfind setlex S (minsert setlex T (length (w_states w)) (w_map w)) =
         match mfind setlex S (w_map w) with Some j => Some j | None => if list_eq_dec Nat.eq_dec S T then Some (length (w_states w)) else None end).
      { intros S. rewrite (mfind_minsert _ setlex_strict _ C3). destruct (mfind setlex S (w_map w)); [reflexivity|].
        destruct (list_eq_dec Nat.eq_dec S T) as [->|Hn]; [rewrite (st_irrefl _ setlex_strict); reflexivity|].
        destruct (st_total _ setlex_strict T S) as [H|[H|H]]; [congruence| |].
        - rewrite H. reflexivity.
        - rewrite H. destruct (setlex T S); reflexivity. }
      split.
      + constructor; cbn [w_states w_sets w_map w_accept w_stack].
        * rewrite set_nth_length, !app_length, C1. reflexivity.
        * intros k S Hk. destruct (Nat.lt_ge_cases k (length (w_sets w))) as [H|H].
          -- rewrite nth_error_app1 in Hk by exact H. eapply C2; eauto.
          -- rewrite nth_error_app2 in Hk by exact H. destruct (k - length (w_sets w))%nat as [|[|]]; cbn in Hk; inv Hk. exact HT.
        * apply minsert_sorted; [apply setlex_strict|exact C3].
        * intros S k. rewrite FM. destruct (mfind setlex S (w_map w)) as [j|] eqn:FS.
          -- intros E. inv E. rewrite nth_error_app1; [apply C4; exact FS|]. apply nth_error_Some. rewrite (C4 _ _ FS). discriminate.
          -- destruct (list_eq_dec Nat.eq_dec S T) as [->|]; [|discriminate]. intros E. inv E.
             rewrite C1, nth_error_app2, Nat.sub_diag by lia. reflexivity.
        * intros k S Hk. rewrite FM. destruct (mfind setlex S (w_map w)) as [j|] eqn:FS; [eauto|].
          destruct (list_eq_dec Nat.eq_dec S T) as [->|Hn]; [eauto|]. exfalso.
          destruct (Nat.lt_ge_cases k (length (w_sets w))) as [H|H].
          -- rewrite nth_error_app1 in Hk by exact H. destruct (C5 _ _ Hk). congruence.
          -- rewrite nth_error_app2 in Hk by exact H. destruct (k - length (w_sets w))%nat as [|[|]]; cbn in Hk; inv Hk. congruence.
        * constructor; [|exact C6]. intros H. apply C7 in H. lia.
        * intros k [<-|H]; rewrite app_length; cbn [length]; [lia|]. apply C7 in H. lia.
        * rewrite (minsert_length _ _ _ F), app_length. cbn [length]. lia.
      + constructor; cbn [w_states w_sets w_map w_accept w_stack].
        * eexists. reflexivity.
        * reflexivity.
        * intros S k Hk. rewrite FM, Hk. reflexivity.
        * intros k. rewrite app_length. cbn [length In]. split.
          -- intros [H|H]; [right; lia|auto].
          -- intros [H|H]; [auto|left; lia].
        * intros k Hk. rewrite set_nth_other by exact Hk. apply nth_app_nil.
        * rewrite set_nth_same by (rewrite app_length; lia). rewrite nth_app_nil. intros HH; apply sins_sorted; [apply trans_strict|exact HH].
        * intros k u. rewrite set_nth_same by (rewrite app_length; lia). rewrite nth_app_nil, (sins_in _ trans_strict). split.
          -- intros [E|H]; [|auto]. inv E. right. exists T. split; [cbn; auto|]. rewrite FM, F.
             destruct (list_eq_dec Nat.eq_dec T T); congruence.
          -- intros [H|(T' & [E|[]] & HT')]; [auto|]. inv E. rewrite FM, F in HT'.
             destruct (list_eq_dec Nat.eq_dec T' T'); [inv HT'; auto|congruence].
        * intros k T' [E|[]]. inv E. rewrite FM, F. destruct (list_eq_dec Nat.eq_dec T' T'); [eauto|congruence].
  Qed.

  Lemma dfa_edges_core d K from : forall edges w, core d K w -> (from < length (w_sets w))%nat ->
    (forall i T, In (i, T) edges -> cset d T) ->
    core d K (fold_left (dfa_edge from) edges w) /\ extends from edges w (fold_left (dfa_edge from) edges w).
  Proof.
    induction edges as [|[i T] edges IH]; intros w C Hf HE; cbn [fold_left].
    - split; [exact C|]. constructor; auto.
      + exists []. rewrite app_nil_r. reflexivity.
      + intros k. split; [auto|]. intros [H|H]; [exact H|lia].
      + intros k t. split; [auto|]. intros [H|(T & [] & _)]. exact H.
      + intros k T [].
    - destruct (dfa_edge_core d K from w i T C Hf (HE i T (or_introl eq_refl))) as [C1 [a1 a2 a3 a4 a5 a6 a7 a8]].
      destruct a1 as [t1 a1].
      destruct (IH _ C1) as [C2 [b1 b2 b3 b4 b5 b6 b7 b8]]; [rewrite a1, app_length; lia|intros; eapply HE; right; eassumption|].
      destruct b1 as [t2 b1].
      split; [exact C2|]. constructor.
      + exists (t1 ++ t2). rewrite b1, a1, app_assoc. reflexivity.
      + congruence.
      + auto.
      + intros k. rewrite b4, a4. rewrite b1, a1, !app_length. split.
        * intros [[H|H]|H]; [auto|right; lia|right; lia].
        * intros [H|H]; [auto|]. destruct (Nat.lt_ge_cases k (length (w_sets w) + length t1)); [left; right; lia|right; lia].
      + intros k Hk. rewrite b5, a5 by exact Hk. reflexivity.
      + auto.
      + intros k t. rewrite b7, a7. cbn [In]. split.
        * intros [[H|(T' & [E|[]] & HT')]|(T' & H1 & H2)]; [auto| |right; exists T'; auto].
          inv E. right. exists T'. split; [auto|]. apply b3. exact HT'.
        * intros [H|(T' & [E|H1] & H2)]; [auto| |right; exists T'; auto]. inv E. left. right. exists T'.
          split; [cbn; auto|]. destruct (a8 k T' (or_introl eq_refl)) as [t' Ht']. rewrite Ht'.
          apply b3 in Ht'. congruence.
      + intros k T' [E|H]; [|apply (b8 _ _ H)]. inv E. destruct (a8 k T' (or_introl eq_refl)) as [t' Ht']. eauto.
  Qed.

  (** * The main loop *)

  Definition acts_of (acc : list (nat * list A)) i : list A := match mfind Nat.ltb i acc with Some l => l | None => [] end.

  Definition finished d (w : dfa_work) (i : nat) (S : list nat) : Prop :=
    acts_of (w_accept w) i = dfa_actions d S /\
    ssorted trans_ltb (nth i (w_states w) []) /\
    if existsb eager (dfa_actions d S) then nth i (w_states w) [] = []
    else exists edges, edges_of d S edges /\
         (forall j t, In (j, t) (nth i (w_states w) []) <-> exists T, In (j, T) edges /\ mfind setlex T (w_map w) = Some t) /\
         (forall j T, In (j, T) edges -> exists t, mfind setlex T (w_map w) = Some t).

  Record inv d K (w : dfa_work) : Prop := {
    i_core : core d K w;
    i_acc : msorted Nat.ltb (w_accept w);
    i_todo : forall i, In i (w_stack w) -> nth i (w_states w) [] = [] /\ acts_of (w_accept w) i = [];
    i_accout : forall i, (length (w_sets w) <= i)%nat -> acts_of (w_accept w) i = [];
    i_done : forall i S, nth_error (w_sets w) i = Some S -> ~ In i (w_stack w) -> finished d w i S }.

  Lemma push_acts acc id l : msorted Nat.ltb acc -> 
    let acc' := fold_left (fun acc a => acc_push acc id a) l acc in
    msorted Nat.ltb acc' /\ acts_of acc' id = acts_of acc id ++ l /\ forall j, j <> id -> acts_of acc' j = acts_of acc j.
  Proof.
    revert acc. induction l as [|a l IH]; intros acc H; cbn [fold_left].
    - split; [exact H|]. split; [rewrite app_nil_r; reflexivity|auto].
    - assert (H' : msorted Nat.ltb (acc_push acc id a)) by (apply mset_sorted; [apply natltb_strict|exact H]).
      destruct (IH _ H') as (I1 & I2 & I3). split; [exact I1|]. split.
      + rewrite I2. unfold acts_of at 1, acc_push. rewrite (mfind_mset_same _ natltb_strict) by exact H.
        rewrite <- app_assoc. reflexivity.
      + intros j Hj. rewrite I3 by exact Hj. unfold acts_of, acc_push. rewrite (mfind_mset_other _ natltb_strict) by assumption. reflexivity.
  Qed.

  Lemma finished_mono d w w2 i S : finished d w i S -> nth i (w_states w2) [] = nth i (w_states w) [] ->
    acts_of (w_accept w2) i = acts_of (w_accept w) i ->
    (forall T t, mfind setlex T (w_map w) = Some t -> mfind setlex T (w_map w2) = Some t) -> finished d w2 i S.
  Proof.
    intros (F1 & F2 & F3) Hs Ha Hm. unfold finished. rewrite Hs, Ha. split; [exact F1|]. split; [exact F2|].
    destruct (existsb eager (dfa_actions d S)); [exact F3|]. destruct F3 as (edges & E1 & E2 & E3).
    exists edges. split; [exact E1|]. split.
    - intros j t. rewrite E2. split; intros (T & H1 & H2).
      + exists T. auto.
      + exists T. split; [exact H1|]. destruct (E3 _ _ H1) as [t' Ht']. pose proof (Hm _ _ Ht') as Ht2. congruence.
    - intros j T H. destruct (E3 _ _ H) as [t Ht]. eauto.
  Qed.

  Lemma cstep d K w id stack : ndfa_ok d -> inv d K w -> w_stack w = id :: stack ->
    let set := nth id (w_sets w) [] in
    let acts := dfa_actions d set in
    let w1 := mkW (w_states w) (w_sets w) (w_map w) (fold_left (fun acc a => acc_push acc id a) acts (w_accept w)) stack in
    (existsb eager acts = true -> inv d K w1) /\
    exists edges, close_all d (dfa_targets d set) = Some edges /\
      (existsb eager acts = false -> inv d K (fold_left (dfa_edge id) edges w1) /\
        (exists t, w_sets (fold_left (dfa_edge id) edges w1) = w_sets w ++ t) /\
        (length (w_stack (fold_left (dfa_edge id) edges w1)) + length (w_sets w) =
         length stack + length (w_sets (fold_left (dfa_edge id) edges w1)))%nat).
  Proof.
    intros OK [C IA IT IO ID] Es. cbn zeta. set (set := nth id (w_sets w) []). set (acts := dfa_actions d set).
    set (w1 := mkW _ _ _ _ _). pose proof C as [C1 C2 C3 C4 C5 C6 C7 C8].
    assert (Hid : (id < length (w_sets w))%nat) by (apply C7; rewrite Es; cbn; auto).
    assert (Eset : nth_error (w_sets w) id = Some set) by (apply nth_error_nth'; exact Hid).
    assert (Nid : ~ In id stack /\ NoDup stack) by (rewrite Es in C6; inv C6; auto).
    destruct (push_acts (w_accept w) id acts IA) as (P1 & P2 & P3).
    destruct (IT id) as [T1 T2]; [rewrite Es; cbn; auto|]. rewrite T2 in P2. cbn [app] in P2.
    assert (Cw1 : core d K w1).
    { constructor; cbn [w1 w_states w_sets w_map w_accept w_stack]; auto; [apply Nid|].
      intros i Hi. apply C7. rewrite Es. cbn; auto. }
    assert (Hdone : forall i S, nth_error (w_sets w) i = Some S -> ~ In i (w_stack w) -> finished d w1 i S).
    { intros i S Hi Hn. apply (finished_mono d w); [auto|reflexivity| |auto].
      cbn [w1 w_accept]. apply P3. intros ->. apply Hn. rewrite Es. cbn; auto. }
    split.
    - intros He. constructor; [exact Cw1|exact P1| | |].
      + cbn [w1 w_stack w_states w_accept]. intros i Hi. rewrite P3 by (intros ->; tauto). apply IT. rewrite Es. cbn; auto.
      + cbn [w1 w_sets w_accept]. intros i Hi. rewrite P3 by lia. apply IO. exact Hi.
      + cbn [w1 w_sets w_stack]. intros i S Hi Hn. destruct (Nat.eq_dec i id) as [->|Hne].
        * rewrite Eset in Hi. inv Hi. unfold finished. cbn [w1 w_accept w_states]. split; [exact P2|].
          rewrite T1. split; [constructor|]. fold acts. rewrite He. reflexivity.
        * apply Hdone; [exact Hi|]. rewrite Es. intros [H|H]; [congruence|auto].
    - destruct (edges_exist d set OK) as (edges & E0 & E1). exists edges. split; [exact E0|]. intros He.
      destruct (dfa_edges_core d K id edges w1 Cw1) as [C' [b1 b2 b3 b4 b5 b6 b7 b8]].
      { exact Hid. }
      { intros i T Hin. apply (proj1 (proj2 E1) _ _ Hin). }
      set (w2 := fold_left (dfa_edge id) edges w1) in *. destruct b1 as [t b1].
      cbn [w1 w_states w_sets w_map w_accept w_stack] in b1, b2, b3, b4, b5, b6, b7, b8.
      split; [|split].
      + constructor; [exact C'|rewrite b2; exact P1| | |].
        * intros i Hi. apply b4 in Hi. assert (i <> id) by (intros ->; destruct Hi; [tauto|lia]).
          rewrite b5 by assumption. rewrite b2, P3 by assumption. destruct Hi as [Hi|Hi]; [apply IT; rewrite Es; cbn; auto|].
          split; [apply nth_overflow; lia|apply IO; lia].
        * intros i Hi. rewrite b1, app_length in Hi. rewrite b2, P3 by lia. apply IO. lia.
        * intros i S Hi Hn. destruct (Nat.eq_dec i id) as [->|Hne].
          -- assert (S = set). { rewrite b1, nth_error_app1, Eset in Hi by exact Hid. congruence. } subst S.
             unfold finished. rewrite b2. split; [exact P2|]. split; [apply b6; rewrite T1; constructor|].
             fold acts. rewrite He. exists edges. split; [exact E1|]. split; [|exact b8].
             intros j u. rewrite b7, T1. cbn [In]. tauto.
          -- assert (Hi' : (i < length (w_sets w))%nat).
             { destruct (Nat.lt_ge_cases i (length (w_sets w))) as [H|H]; [exact H|]. exfalso. apply Hn. apply b4. right.
               split; [exact H|]. apply nth_error_Some. congruence. }
             apply (finished_mono d w1).
             ++ apply Hdone; [rewrite b1, nth_error_app1 in Hi by exact Hi'; exact Hi|]. rewrite Es. intros [H|H]; [congruence|].
                apply Hn. apply b4. auto.
             ++ rewrite b5 by exact Hne. reflexivity.
             ++ rewrite b2. reflexivity.
             ++ exact b3.
      + exists t. exact b1.
      + assert (PM : Permutation.Permutation (w_stack w2) (stack ++ seq (length (w_sets w)) (length (w_sets w2) - length (w_sets w)))).
        { apply Permutation.NoDup_Permutation.
          - apply (c_nd _ _ _ C').
          - apply Permutation.Permutation_NoDup with (l := seq (length (w_sets w)) (length (w_sets w2) - length (w_sets w)) ++ stack).
            + apply Permutation.Permutation_app_comm.
            + assert (N1 := seq_NoDup (length (w_sets w2) - length (w_sets w)) (length (w_sets w))).
              revert N1. generalize (proj2 Nid). intros N2 N1.
              assert (Dj : forall x, In x (seq (length (w_sets w)) (length (w_sets w2) - length (w_sets w))) -> ~ In x stack).
              { intros x Hx Hs. apply in_seq in Hx. assert (x < length (w_sets w))%nat by (apply C7; rewrite Es; cbn; auto). lia. }
              revert N1 Dj. generalize (seq (length (w_sets w)) (length (w_sets w2) - length (w_sets w))). induction l as [|x l IHl]; intros N1 Dj; [exact N2|].
              inv N1. cbn [app]. constructor.
              * intros Hx. apply in_app_or in Hx as [Hx|Hx]; [auto|]. apply (Dj x); cbn; auto.
              * apply IHl; [assumption|]. intros y Hy. apply Dj. cbn; auto.
          - intros x. rewrite b4, in_app_iff, in_seq. rewrite b1, app_length. split; (intros [H|H]; [auto|right; lia]). }
        apply Permutation.Permutation_length in PM. rewrite PM, app_length, seq_length. rewrite b1, app_length. lia.
  Qed.

  (** * Termination *)

  Fixpoint subs (l : list nat) : list (list nat) :=
    match l with
    | [] => [[]]
    | a :: t => map (cons a) (subs t) ++ subs t
    end.

  Lemma subs_length l : length (subs l) = (2 ^ length l)%nat.
  Proof. induction l as [|a l IH]; cbn [subs length Nat.pow]; [reflexivity|]. rewrite app_length, map_length, IH. lia. Qed.

  Lemma subs_in n k S : ssorted Nat.ltb S -> (forall q, In q S -> (k <= q < k + n)%nat) -> In S (subs (seq k n)).
  Proof.
    revert k S. induction n as [|n IH]; intros k S Hs Hb.
    - destruct S as [|q S]; [cbn; auto|]. specialize (Hb q (or_introl eq_refl)). lia.
    - cbn [seq subs]. apply in_or_app. destruct S as [|q S].
      + right. apply IH; [constructor|intros ? []].
      + apply ssorted_cons in Hs as [Hs Hl]. destruct (Nat.eq_dec q k) as [->|Hn].
        * left. apply in_map. apply IH; [exact Hs|]. intros r Hr. specialize (Hl _ Hr). specialize (Hb r (or_intror Hr)). lia.
        * right. apply IH; [apply ssorted_cons; auto|]. intros r Hr. pose proof (Hb r Hr).
          destruct Hr as [<-|Hr]; [lia|]. specialize (Hl _ Hr). specialize (Hb q (or_introl eq_refl)). lia.
  Qed.

  Lemma map_bound d K w : core d K w -> (length (w_map w) <= 2 ^ count_states d)%nat.
  Proof.
    intros [C1 C2 C3 C4 C5 C6 C7 C8]. rewrite <- (seq_length (count_states d) 0) at 1. rewrite <- subs_length.
    rewrite <- (map_length fst). apply NoDup_incl_length.
    - clear -C3. induction (w_map w) as [|[k v] m IH]; cbn; [constructor|]. apply msorted_cons in C3 as [H1 H2].
      constructor; [|auto]. intros Hin. apply in_map_iff in Hin as ([k' v'] & E & Hin). cbn in E. subst k'.
      specialize (H2 _ Hin). cbn [fst] in H2. rewrite (st_irrefl _ setlex_strict) in H2. discriminate.
    - intros S Hin. apply in_map_iff in Hin as ([S' i] & E & Hin). cbn in E. subst S'.
      apply (mfind_in _ setlex_strict _ C3) in Hin. apply C4 in Hin. apply C2 in Hin as [H1 H2 _].
      apply subs_in; [exact H1|]. intros q Hq. specialize (H2 _ Hq). lia.
  Qed.

  Lemma dfa_loop_spec d K : ndfa_ok d -> forall fuel w, inv d K w ->
    (forall w', dfa_loop eager fuel d w = Some w' -> inv d K w' /\ w_stack w' = [] /\ exists t, w_sets w' = w_sets w ++ t) /\
    ((K + 2 ^ count_states d + length (w_stack w) <= fuel + length (w_sets w))%nat -> dfa_loop eager fuel d w <> None).
  Proof.
    intros OK. induction fuel as [|fuel IH]; intros w I; cbn [dfa_loop]; destruct (w_stack w) as [|id stack] eqn:Es.
    - split; [intros w' E; inv E; split; [exact I|]; split; [exact Es|]; exists []; rewrite app_nil_r; reflexivity|intros _; discriminate].
    - split; [discriminate|]. intros H. exfalso. pose proof (map_bound d K w (i_core _ _ _ I)).
      pose proof (c_cnt _ _ _ (i_core _ _ _ I)). cbn [length] in H. lia.
    - split; [intros w' E; inv E; split; [exact I|]; split; [exact Es|]; exists []; rewrite app_nil_r; reflexivity|intros _; discriminate].
    - destruct (cstep d K w id stack OK I Es) as [H1 (edges & E0 & H2)]. cbn zeta in *.
      destruct (existsb eager (dfa_actions d (nth id (w_sets w) []))) eqn:He.
      + destruct (IH _ (H1 eq_refl)) as [J1 J2]. split; [exact J1|]. cbn [w_stack w_sets length] in *. intros H. apply J2. lia.
      + rewrite E0. destruct (H2 eq_refl) as (Iw & [t Et] & Hl). destruct (IH _ Iw) as [J1 J2]. split.
        * intros w' E. apply J1 in E as (E1 & E2 & [t' E3]). split; [exact E1|]. split; [exact E2|].
          exists (t ++ t'). rewrite E3, Et, app_assoc. reflexivity.
        * intros H. apply J2. cbn [length] in H. lia.
  Qed.

  (** * The initial states *)

  Record iinv d (init : list nat) (w : dfa_work) : Prop := {
    ii_core : core d (length init) w;
    ii_states : w_states w = map (fun _ => []) init;
    ii_acc : w_accept w = [];
    ii_stack : forall i, In i (w_stack w) <-> (i < length init)%nat;
    ii_len : length (w_stack w) = length init;
    ii_sets : Forall2 (fun q S => closure d [q] = Some S) init (w_sets w) }.

  Lemma dfa_initials_spec d : ndfa_ok d -> forall init done w, (forall q, In q init -> (q < count_states d)%nat) -> iinv d done w ->
    exists w', dfa_initials d w init = Some w' /\ iinv d (done ++ init) w'.
  Proof.
    intros OK. induction init as [|q init IH]; intros don w Hb I; cbn [dfa_initials].
    - exists w. rewrite app_nil_r. auto.
    - unfold dfa_initial. destruct (closure_cset d [q] OK) as (S & ES & CS & _).
      { apply ssorted_cons. split; [constructor|intros ? []]. }
      { intros r [<-|[]]. apply Hb. cbn; auto. }
      rewrite ES. destruct (IH (don ++ [q]) (mkW (w_states w ++ [[]]) (w_sets w ++ [S])
          (match mfind setlex S (w_map w) with Some _ => w_map w | None => mset setlex S (length (w_states w)) (w_map w) end)
          (w_accept w) (length (w_states w) :: w_stack w))) as (w' & E & I').
      { intros r Hr. apply Hb. cbn; auto. }
      { destruct I as [[C1 C2 C3 C4 C5 C6 C7 C8] I2 I3 I4 I4' I5].
        assert (Ld : length (w_sets w) = length don) by (apply Forall2_length in I5; auto).
        constructor; cbn [w_states w_sets w_map w_accept w_stack].
        - constructor; cbn [w_states w_sets w_map w_accept w_stack].
          + rewrite !app_length, C1. reflexivity.
          + intros k T Hk. destruct (Nat.lt_ge_cases k (length (w_sets w))) as [H|H].
            * rewrite nth_error_app1 in Hk by exact H. eapply C2; eauto.
            * rewrite nth_error_app2 in Hk by exact H. destruct (k - length (w_sets w))%nat as [|[|]]; cbn in Hk; inv Hk. exact CS.
          + destruct (mfind setlex S (w_map w)); [exact C3|]. apply mset_sorted; [apply setlex_strict|exact C3].
          + intros T k. destruct (mfind setlex S (w_map w)) as [j|] eqn:F.
            * intros H. apply C4 in H. rewrite nth_error_app1; [exact H|]. apply nth_error_Some. congruence.
            * destruct (list_eq_dec Nat.eq_dec T S) as [->|Hn].
              -- rewrite (mfind_mset_same _ setlex_strict) by exact C3. intros E. inv E.
                 rewrite C1, nth_error_app2, Nat.sub_diag by lia. reflexivity.
              -- rewrite (mfind_mset_other _ setlex_strict) by assumption. intros H. apply C4 in H.
                 rewrite nth_error_app1; [exact H|]. apply nth_error_Some. congruence.
          + intros k T Hk. assert (Hk' : In T (w_sets w) \/ T = S).
            { apply nth_error_In in Hk. apply in_app_or in Hk as [Hk|[<-|[]]]; auto. }
            destruct (mfind setlex S (w_map w)) as [j|] eqn:F.
            * destruct Hk' as [Hk'| ->]; [|eauto]. apply In_nth_error in Hk' as [k' Hk']. eapply C5; eauto.
            * destruct (list_eq_dec Nat.eq_dec T S) as [->|Hn].
              -- rewrite (mfind_mset_same _ setlex_strict) by exact C3. eauto.
              -- rewrite (mfind_mset_other _ setlex_strict) by assumption. destruct Hk' as [Hk'|]; [|congruence].
                 apply In_nth_error in Hk' as [k' Hk']. eapply C5; eauto.
          + constructor; [|exact C6]. intros H. apply I4 in H. rewrite C1 in H. lia.
          + intros k [<-|H]; rewrite app_length; cbn [length]; [lia|]. apply C7 in H. lia.
          + rewrite !app_length. cbn [length]. lia.
        - rewrite I2, map_app. reflexivity.
        - exact I3.
        - intros k. rewrite app_length. cbn [length In]. rewrite I4. rewrite C1. lia.
        - rewrite app_length. cbn [length]. lia.
        - apply Forall2_app; [exact I5|]. constructor; [exact ES|constructor]. }
      exists w'. split; [exact E|]. rewrite <- app_assoc in I'. exact I'.
  Qed.

  Lemma initial_inv d init w : iinv d init w -> inv d (length init) w.
  Proof.
    intros [C I2 I3 I4 I4' I5]. constructor; [exact C|rewrite I3; constructor| | |].
    - intros i Hi. rewrite I2, I3. split; [|reflexivity].
      clear. revert i. induction init as [|a l IH]; intros [|i]; cbn; auto.
    - intros i Hi. rewrite I3. reflexivity.
    - intros i S Hi Hn. exfalso. apply Hn. apply I4. apply Forall2_length in I5. rewrite I5. apply nth_error_Some. congruence.
  Qed.

  (** * The checks *)

  Lemma verify_is_dfa_spec d : verify_is_dfa d = true <->
    forall st, In st (n_states d) -> NoDup (map fst st) /\ ~ In (eps_id d) (map fst st).
  Proof.
    unfold verify_is_dfa. rewrite forallb_forall.
    assert (G : forall (st : list transition) used, ssorted Z.ltb used ->
      match fold_left (fun used (t : transition) =>
              match used with
              | None => None
              | Some used => if smem Z.ltb (fst t) used then None else Some (sins Z.ltb (fst t) used)
              end) st (Some used) with Some _ => true | None => false end = true <->
      NoDup (map fst st) /\ (forall i, In i (map fst st) -> ~ In i used)).
    { induction st as [|[i r] st IH]; intros used Hu; cbn [fold_left map fst].
      - split; [intros _; split; [constructor|intros ? []]|reflexivity].
      - destruct (smem Z.ltb i used) eqn:E.
        + replace (fold_left _ st None) with (@None (list Z)).
          2:{ clear. induction st as [|t st IH]; cbn [fold_left]; auto. }
          apply (smem_in _ Zltb_strict _ Hu) in E. split; [discriminate|]. intros [_ H]. exfalso. apply (H i); cbn; auto.
        + assert (E' : ~ In i used) by (intros H; apply (smem_in _ Zltb_strict _ Hu) in H; congruence).
          rewrite IH by (apply sins_sorted; [apply Zltb_strict|exact Hu]). split.
          * intros [H1 H2]. split.
            -- constructor; [|exact H1]. intros H. apply (H2 _ H). apply sins_in; [apply Zltb_strict|auto].
            -- intros j [<-|H] Hj; [auto|]. apply (H2 _ H). apply sins_in; [apply Zltb_strict|auto].
          * intros [H1 H2]. inv H1. split; [assumption|]. intros j Hj Hin. apply sins_in in Hin as [->|Hin]; [auto| |apply Zltb_strict].
            apply (H2 j); cbn; auto. }
    split; intros H st Hst.
    - specialize (H st Hst). apply G in H as [H1 H2]; [|apply ssorted_cons; split; [constructor|intros ? []]].
      split; [exact H1|]. intros Hin. apply (H2 _ Hin). cbn; auto.
    - apply G; [apply ssorted_cons; split; [constructor|intros ? []]|]. destruct (H st Hst) as [H1 H2]. split; [exact H1|].
      intros i Hi [<-|[]]. auto.
  Qed.

  (** * Correctness *)

  Lemma dfa_actions_in d S a : (forall q, In q S -> (q < count_states d)%nat) ->
    In a (dfa_actions d S) <-> exists q, In q S /\ In a (actions_for_state d q).
  Proof.
    intros Hb. unfold dfa_actions. rewrite in_flat_map. split; intros (q & H1 & H2); exists q; (split; [exact H1|]);
      unfold actions_for_state in *; (replace (Nat.leb (count_states d) q) with false in * by (symmetry; apply Nat.leb_gt; auto)); exact H2.
  Qed.

  Lemma path_cons_inv d q x w q' : path d q (x :: w) q' ->
    exists s id r, path d q [] s /\ In (id, r) (get_state d s) /\ contains (sm_get (n_symbols d) id) x = true /\ path d r w q'.
  Proof.
    intros H. remember (x :: w) as v eqn:E. revert E. induction H as [q|q id r v q' Hin He Hp IH|q id r y v q' Hin Hc Hp IH]; intros E.
    - discriminate.
    - destruct (IH E) as (s & id' & r' & H1 & H2 & H3 & H4). exists s, id', r'. split; [|auto]. eapply path_eps; eauto.
    - inv E. exists q, id, r. split; [constructor|auto].
  Qed.

  Section Correct.
    Variables (d : ndfa A) (w : dfa_work (A:=A)) (K : nat).
    Hypothesis OK : ndfa_ok d.
    Hypothesis DJ : disjoint_symbols d.
    Hypothesis IV : inv d K w.
    Hypothesis ST : w_stack w = [].

    Let r := mkN (w_states w) (n_symbols d) (w_accept w).

    Lemma r_fin i S : nth_error (w_sets w) i = Some S -> finished d w i S.
    Proof. intros H. apply (i_done _ _ _ IV); [exact H|]. rewrite ST. intros []. Qed.

    Lemma r_edge i S j t : nth_error (w_sets w) i = Some S -> In (j, t) (get_state r i) ->
      existsb eager (dfa_actions d S) = false /\ j <> eps_id d /\ 0 <= j < sm_count (n_symbols d) /\
      exists T, nth_error (w_sets w) t = Some T /\ T <> [] /\
        forall q, In q T <-> exists s r, In s S /\ In (j, r) (get_state d s) /\ path d r [] q.
    Proof.
      intros Hi Hin. unfold get_state in Hin. cbn [r n_states] in Hin. destruct (r_fin _ _ Hi) as (F1 & F2 & F3).
      destruct (existsb eager (dfa_actions d S)) eqn:E; [rewrite F3 in Hin; destruct Hin|]. split; [reflexivity|].
      destruct F3 as (edges & (E1 & E2 & E3) & E4 & E5). apply E4 in Hin as (T & H1 & H2). destruct (E2 _ _ H1) as (G1 & G2 & G3 & G4 & G5).
      split; [exact G3|]. split; [exact G4|]. exists T. split; [apply (c_mval _ _ _ (i_core _ _ _ IV)); exact H2|]. auto.
    Qed.

    Lemma r_edge_ex i S j s q : nth_error (w_sets w) i = Some S -> existsb eager (dfa_actions d S) = false ->
      In s S -> In (j, q) (get_state d s) -> j <> eps_id d -> exists t, In (j, t) (get_state r i).
    Proof.
      intros Hi He Hs Hin Hj. destruct (r_fin _ _ Hi) as (F1 & F2 & F3). rewrite He in F3.
      destruct F3 as (edges & (E1 & E2 & E3) & E4 & E5). destruct (E3 _ _ _ Hs Hin Hj) as [T HT].
      destruct (E5 _ _ HT) as [t Ht]. exists t. unfold get_state. cbn [r n_states]. apply E4. eauto.
    Qed.

    Lemma r_out i : nth_error (w_sets w) i = None -> get_state r i = [].
    Proof.
      intros H. unfold get_state. cbn [r n_states]. apply nth_overflow. rewrite (c_len _ _ _ (i_core _ _ _ IV)).
      apply nth_error_None. exact H.
    Qed.

    Lemma r_actions i S : nth_error (w_sets w) i = Some S -> actions_for_state r i = dfa_actions d S.
    Proof.
      intros H. destruct (r_fin _ _ H) as (F1 & _). unfold actions_for_state, count_states. cbn [r n_states n_accept].
      assert (i < length (w_sets w))%nat by (apply nth_error_Some; congruence).
      replace (Nat.leb (length (w_states w)) i) with false by (symmetry; apply Nat.leb_gt; rewrite (c_len _ _ _ (i_core _ _ _ IV)); assumption).
      exact F1.
    Qed.

    Lemma r_ok : ndfa_ok r.
    Proof.
      constructor.
      - apply (ok_symbols _ OK).
      - intros i j t Hin. destruct (nth_error (w_sets w) i) as [S|] eqn:E; [|rewrite (r_out _ E) in Hin; destruct Hin].
        destruct (r_edge _ _ _ _ E Hin) as (_ & _ & H1 & T & H2 & _). split; [exact H1|].
        unfold count_states. cbn [r n_states]. rewrite (c_len _ _ _ (i_core _ _ _ IV)). apply nth_error_Some. congruence.
      - intros i. destruct (nth_error (w_sets w) i) as [S|] eqn:E; [|rewrite (r_out _ E); constructor].
        apply (r_fin _ _ E).
      - apply (i_acc _ _ _ IV).
    Qed.

    Lemma r_state st : In st (n_states r) -> exists i S, nth_error (w_sets w) i = Some S /\ get_state r i = st.
    Proof.
      intros H. apply (In_nth _ _ []) in H as (i & Hi & E).
      assert (Hi' : (i < length (w_sets w))%nat) by (rewrite <- (c_len _ _ _ (i_core _ _ _ IV)); exact Hi).
      exists i. destruct (nth_error (w_sets w) i) as [S|] eqn:F; [|apply nth_error_None in F; lia]. exists S. split; [reflexivity|exact E].
    Qed.

    Lemma r_fun i S j t t' : nth_error (w_sets w) i = Some S -> In (j, t) (get_state r i) -> In (j, t') (get_state r i) -> t = t'.
    Proof.
      intros Hi H H'. destruct (r_fin _ _ Hi) as (F1 & F2 & F3). unfold get_state in *. cbn [r n_states] in *.
      destruct (existsb eager (dfa_actions d S)); [rewrite F3 in H; destruct H|].
      destruct F3 as (edges & (E1 & E2 & E3) & E4 & E5). apply E4 in H as (T & H1 & H2). apply E4 in H' as (T' & H1' & H2').
      assert (T = T'); [|congruence].
      clear -E1 H1 H1'. induction edges as [|[i S] edges IH]; [destruct H1|]. cbn [map fst] in E1. inv E1.
      destruct H1 as [E|H1], H1' as [E'|H1'].
      - congruence.
      - inv E. exfalso. apply H2. apply (in_map fst) in H1'. exact H1'.
      - inv E'. exfalso. apply H2. apply (in_map fst) in H1. exact H1.
      - auto.
    Qed.

    Lemma r_verify : verify_is_dfa r = true.
    Proof.
      apply verify_is_dfa_spec. intros st Hst. destruct (r_state _ Hst) as (i & S & Hi & <-). split.
      - pose proof (ok_sorted _ r_ok i) as HS. pose proof (r_fun i S) as HF. clear Hst.
        induction (get_state r i) as [|[j t] l IH]; cbn [map fst]; [constructor|]. apply SS_cons in HS as [HS1 HS2]. constructor.
        + intros Hin. apply in_map_iff in Hin as ([j' t'] & E & Hin). cbn in E. subst j'.
          assert (t = t') by (apply (HF j); cbn; auto). subst t'. specialize (HS2 _ Hin). rewrite (st_irrefl _ trans_strict) in HS2. discriminate.
        + apply IH; [exact HS1|]. intros. eapply HF; try (right; eassumption). exact Hi.
      - intros Hin. apply in_map_iff in Hin as ([j t] & E & Hin). cbn in E. subst j.
        destruct (r_edge _ _ _ _ Hi Hin) as (_ & H & _). apply H. reflexivity.
    Qed.

    Lemma r_deterministic : deterministic r.
    Proof.
      destruct (ok_inv _ OK) as [I _]. split.
      - intros i j t Hin E. destruct (nth_error (w_sets w) i) as [S|] eqn:F; [|rewrite (r_out _ F) in Hin; destruct Hin].
        destruct (r_edge _ _ _ _ F Hin) as (_ & H1 & H2 & _). apply H1. apply (eps_id_spec _ I); assumption.
      - intros i x j t j' t' Hin Hin' Hc Hc'. assert (j = j') by (apply (DJ j j' x); assumption). subst j'.
        destruct (nth_error (w_sets w) i) as [S|] eqn:F; [|rewrite (r_out _ F) in Hin; destruct Hin]. eapply r_fun; eauto.
    Qed.

    Lemma r_correct v a : forall i S, nth_error (w_sets w) i = Some S ->
      accepts r i v a <-> (exists s, In s S /\ accepts d s v a) /\
        (forall u x u' b s, v = u ++ x :: u' -> In s S -> accepts d s u b -> eager b = false).
    Proof.
      destruct (ok_inv _ OK) as [I _]. destruct r_deterministic as [NE _].
      assert (NP : forall i q, path r i [] q -> q = i).
      { intros i q H. remember (@nil Z) as u eqn:E. destruct H as [q|q id t u q' Hin He Hp|]; [reflexivity| |discriminate].
        exfalso. eapply NE; eauto. }
      induction v as [|x v IH]; intros i S Hi; pose proof (c_P _ _ _ (i_core _ _ _ IV) _ _ Hi) as CS; destruct CS as [CS1 CS2 CS3].
      - split.
        + intros (q & Hp & Ha). apply NP in Hp. subst q. rewrite (r_actions _ _ Hi) in Ha. apply (dfa_actions_in _ _ _ CS2) in Ha as (q & H1 & H2).
          split; [exists q; split; [exact H1|]; exists q; split; [constructor|exact H2]|]. intros [|] ? ? ? ? E; discriminate.
        + intros [(s & Hs & q & Hp & Ha) _]. exists i. split; [constructor|]. rewrite (r_actions _ _ Hi). apply (dfa_actions_in _ _ _ CS2).
          exists q. split; [|exact Ha]. eapply CS3; eauto.
      - destruct (existsb eager (dfa_actions d S)) eqn:He.
        + split.
          * intros (q & Hp & _). apply path_cons_inv in Hp as (s & j & t & Hp & Hin & _). apply NP in Hp. subst s.
            destruct (r_edge _ _ _ _ Hi Hin) as (H & _). congruence.
          * intros [_ H]. apply existsb_exists in He as (b & Hb & He). apply (dfa_actions_in _ _ _ CS2) in Hb as (q & H1 & H2).
            specialize (H [] x v b q eq_refl H1). rewrite H in He; [discriminate|]. exists q. split; [constructor|exact H2].
        + assert (HE : forall s b, In s S -> accepts d s [] b -> eager b = false).
          { intros s b Hs (q & Hp & Hb). destruct (eager b) eqn:Eb; [|reflexivity].
            assert (existsb eager (dfa_actions d S) = true); [|congruence]. apply existsb_exists. exists b. split; [|exact Eb].
            apply (dfa_actions_in _ _ _ CS2). exists q. split; [eapply CS3; eauto|exact Hb]. }
          (* the sets reached by x *)
          assert (STEP : forall j t T, In (j, t) (get_state r i) -> contains (sm_get (n_symbols d) j) x = true ->
             nth_error (w_sets w) t = Some T ->
             (forall q, In q T <-> exists s r, In s S /\ In (j, r) (get_state d s) /\ path d r [] q) ->
             forall u b, (exists s, In s S /\ accepts d s (x :: u) b) <-> (exists s, In s T /\ accepts d s u b)).
          { intros j t T Hin Hc Ht HT u b. split.
            - intros (s & Hs & q & Hp & Hb). apply path_cons_inv in Hp as (s' & j' & q' & Hp & Hin' & Hc' & Hp').
              assert (j' = j) by (apply (DJ j' j x); assumption). subst j'. exists q'. split; [|exists q; auto].
              apply HT. exists s', q'. split; [eapply CS3; eauto|]. split; [exact Hin'|constructor].
            - intros (q' & Hq & q & Hp & Hb). apply HT in Hq as (s & q2 & Hs & Hin' & Hp2). exists s. split; [exact Hs|].
              exists q. split; [|exact Hb]. eapply path_sym; [exact Hin'|exact Hc|]. eapply epath_app; eauto. }
          split.
          * intros (q & Hp & Ha). apply path_cons_inv in Hp as (s & j & t & Hp & Hin & Hc & Hp'). apply NP in Hp. subst s.
            destruct (r_edge _ _ _ _ Hi Hin) as (_ & _ & _ & T & Ht & _ & HT). cbn [r n_symbols] in Hc.
            assert (AT : accepts r t v a) by (exists q; auto). apply (IH _ _ Ht) in AT as [A1 A2].
            pose proof (STEP j t T Hin Hc Ht HT) as SS. split; [apply SS; exact A1|].
            intros [|y u] z u' b s E Hs Hb; [eapply HE; eauto|]. cbn [app] in E. inv E.
            destruct (proj1 (SS u b)) as (s' & Hs' & Hb'); [exists s; auto|]. eapply A2; eauto.
          * intros [(s & Hs & Ha) Hcut]. pose proof Ha as (q & Hp & Hq). apply path_cons_inv in Hp as (s' & j & q' & Hp & Hin & Hc & Hp').
            assert (Hj : j <> eps_id d).
            { intros E. apply (eps_id_spec _ I) in E; [rewrite E in Hc; discriminate|]. eapply ok_trans; eauto. }
            assert (Hs' : In s' S) by (eapply CS3; eauto).
            destruct (r_edge_ex _ _ _ _ _ Hi He Hs' Hin Hj) as [t Ht]. destruct (r_edge _ _ _ _ Hi Ht) as (_ & _ & _ & T & HT1 & _ & HT2).
            pose proof (STEP j t T Ht Hc HT1 HT2) as SS.
            assert (AT : accepts r t v a).
            { apply (IH _ _ HT1). split; [apply SS; exists s; auto|]. intros u y u' b s2 E Hs2 Hb.
              destruct (proj2 (SS u b)) as (s3 & Hs3 & Hb3); [exists s2; auto|]. subst v. eapply (Hcut (x :: u) y u'); eauto. }
            destruct AT as (q2 & Hp2 & Hq2). exists q2. split; [|exact Hq2]. eapply path_sym; [exact Ht|exact Hc|exact Hp2].
    Qed.
  End Correct.

  Theorem to_dfa_terminates d init : ndfa_ok d -> (forall q, In q init -> (q < count_states d)%nat) ->
    exists fuel r, to_dfa eager fuel d init = Some r.
  Proof.
    intros OK Hb. destruct init as [|q0 init]; [exists O, ndfa_new; reflexivity|].
    set (L := q0 :: init) in *. unfold to_dfa.
    destruct (dfa_initials_spec d OK L [] (mkW [] [] [] [] []) Hb) as (w & E & I).
    { constructor; cbn; auto; [constructor; cbn; auto; try (intros [|]; discriminate); try constructor; try discriminate; contradiction|intros; split; [intros []|lia]]. }
    cbn [app] in I. destruct (dfa_loop_spec d (length L) OK (length L + 2 ^ count_states d) w (initial_inv _ _ _ I)) as [_ H].
    exists (length L + 2 ^ count_states d)%nat. unfold L in E |- *. rewrite E.
    destruct (dfa_loop eager _ d w) as [w'|] eqn:F; [eauto|]. exfalso. apply H; [|reflexivity].
    rewrite (ii_len _ _ _ I). pose proof (ii_sets _ _ _ I) as S. apply Forall2_length in S. rewrite <- S. lia.
  Qed.

  Theorem to_dfa_correct d init fuel r : ndfa_ok d -> disjoint_symbols d ->
    (forall q, In q init -> (q < count_states d)%nat) -> to_dfa eager fuel d init = Some r ->
    ndfa_ok r /\ verify_is_dfa r = true /\ deterministic r /\ n_symbols r = (match init with [] => sm_empty | _ => n_symbols d end) /\
    (length init <= count_states r)%nat /\
    forall k q0, nth_error init k = Some q0 -> forall w a,
      accepts r k w a <-> accepts d q0 w a /\ not_cut eager d q0 w.
  Proof.
    intros OK DJ Hb E. destruct init as [|q0 init].
    - cbn in E. inv E. split; [apply ndfa_new_ok|]. split; [reflexivity|]. split; [|split; [reflexivity|split; [cbn; lia|]]].
      + split; intros q; unfold get_state; destruct q as [|[|q]]; cbn; contradiction.
      + intros [|k]; discriminate.
    - set (L := q0 :: init) in *. unfold to_dfa in E.
      destruct (dfa_initials_spec d OK L [] (mkW [] [] [] [] []) Hb) as (w & E1 & I).
      { constructor; cbn; auto; [constructor; cbn; auto; try (intros [|]; discriminate); try constructor; try discriminate; contradiction|intros; split; [intros []|lia]]. }
      cbn [app] in I. unfold L in E, E1. rewrite E1 in E. fold L in E, E1.
      destruct (dfa_loop eager fuel d w) as [w'|] eqn:F; [|discriminate]. inv E.
      destruct (dfa_loop_spec d (length L) OK fuel w (initial_inv _ _ _ I)) as [H _]. destruct (H _ F) as (IV & ST & [t Et]).
      split; [eapply r_ok; eauto|]. split; [eapply r_verify; eauto|]. split; [eapply r_deterministic; eauto|]. split; [reflexivity|].
      pose proof (Forall2_length _ _ _ (ii_sets _ _ _ I)) as LS.
      split; [unfold count_states; cbn [n_states]; rewrite (c_len _ _ _ (i_core _ _ _ IV)), Et, app_length; lia|].
      intros k q Hk v a.
      assert (Hkl : (k < length L)%nat) by (apply nth_error_Some; congruence).
      destruct (nth_error (w_sets w) k) as [S|] eqn:HS; [|apply nth_error_None in HS; lia].
      assert (HC : closure d [q] = Some S) by (apply (proj2 (Forall2_nth _ _ _ (ii_sets _ _ _ I)) k); assumption).
      destruct (closure_cset d [q] OK) as (S' & ES & CS & IS).
      { apply ssorted_cons. split; [constructor|intros ? []]. }
      { intros x [<-|[]]. apply Hb. eapply nth_error_In; eauto. }
      rewrite HC in ES. inv ES.
      rewrite (r_correct d w' (length L) OK DJ IV ST v a k S').
      2:{ rewrite Et, nth_error_app1 by (apply nth_error_Some; congruence). exact HS. }
      assert (AQ : forall u b, (exists s, In s S' /\ accepts d s u b) <-> accepts d q u b).
      { intros u b. split.
        - intros (s & Hs & s' & Hp & Hb'). apply IS in Hs as (q' & [<-|[]] & Hp'). exists s'. split; [eapply epath_app; eauto|exact Hb'].
        - intros H'. exists q. split; [|exact H']. apply IS. exists q. split; [cbn; auto|constructor]. }
      rewrite AQ. split; intros [H1 H2]; (split; [exact H1|]).
      + intros u u' b E Hu Hb'. apply AQ in Hb' as (s & Hs & Hb'). destruct u' as [|x u']; [congruence|]. eapply H2; eauto.
      + intros u x u' b s E Hs Hb'. eapply (H2 u (x :: u') b E); [discriminate|]. apply AQ. eauto.
  Qed.

  Lemma build_unique_dfa_lemma (ops : list (@op A)) :
    Forall op_valid ops -> all_compatible (n_symbols (build ops)) ->
    exists u fuel r, to_ndfa_with_unique_symbols (build ops) = Some u /\ to_dfa eager fuel u [0%nat] = Some r /\
      verify_is_dfa r = true /\ deterministic r /\
      forall w a, accepts r 0 w a <-> accepts (build ops) 0 w a /\ not_cut eager (build ops) 0 w.
  Proof.
    intros HV HC. pose proof (build_ok_lemma ops HV) as OK.
    assert (CNT : (0 < count_states (build ops))%nat).
    { unfold build. assert (G : forall l (d : ndfa A), (0 < count_states d)%nat -> (0 < count_states (fold_left do_op l d))%nat).
      { induction l as [|o l IH]; intros d Hd; cbn [fold_left]; [exact Hd|]. apply IH. unfold count_states in *.
        destruct o; cbn [do_op add_state snd accept clear_accept n_states]; auto.
        - rewrite app_length. lia.
        - unfold add_transition. destruct (Nat.leb _ old); [exact Hd|]. destruct (Nat.leb _ new); [exact Hd|].
          destruct (sm_identifier _ s). cbn [state_add n_states]. rewrite set_nth_length. exact Hd. }
      apply G. cbn. lia. }
    destruct (unique_lemma _ OK HC) as (u & Eu & OKu & DJ & _ & CS & AC & PT).
    destruct (to_dfa_terminates u [0%nat] OKu) as (fuel & r & Er).
    { intros q [<-|[]]. lia. }
    destruct (to_dfa_correct u [0%nat] fuel r OKu DJ) as (_ & V & D & _ & _ & H); [intros q [<-|[]]; lia|exact Er|].
    exists u, fuel, r. split; [exact Eu|]. split; [exact Er|]. split; [exact V|]. split; [exact D|].
    assert (AE : forall w a, accepts u 0 w a <-> accepts (build ops) 0 w a).
    { intros w a. unfold accepts. split; intros (q & H1 & H2); exists q; (split; [apply PT; exact H1|rewrite AC in *; exact H2]). }
    intros w a. rewrite (H 0%nat 0%nat eq_refl w a), AE. unfold not_cut. split; intros [H1 H2]; (split; [exact H1|]);
      intros x y b E Hy Hb; (eapply H2; eauto); apply AE; exact Hb.
  Qed.
End Proofs.

Lemma unique_no_partition_lemma :
  exists (ops : list (@op Z)) d', Forall op_valid ops /\ to_ndfa_with_unique_symbols (build ops) = Some d' /\
    path (build ops) 0 [97] 1 /\ ~ path d' 0 [97] 1.
Proof.
  exists [OpState; OpTrans 0 [mkR 32 33] 1; OpTrans 0 [mkR 48 58] 1; OpTrans 0 [mkR 0 34; mkR 35 c_MaxSymbol] 1].
  eexists. split; [|split; [vm_compute; reflexivity|split]].
  - repeat (apply Forall_cons; [try exact I; apply normal_b_sound; vm_compute; reflexivity|]). apply Forall_nil.
  - apply (path_sym _ 0 2 1); [vm_compute; auto|vm_compute; reflexivity|constructor].
  - intros H. apply path_cons_inv in H as (s & id & r & H1 & H2 & H3 & _).
    assert (s = 0%nat) as ->.
    { inversion H1; [reflexivity|subst]. vm_compute in H. destruct H as [H|[H|[H|[]]]]; inv H; vm_compute in H0; discriminate. }
    vm_compute in H2. destruct H2 as [H|[H|[H|[]]]]; inv H; vm_compute in H3; discriminate.
Qed.
