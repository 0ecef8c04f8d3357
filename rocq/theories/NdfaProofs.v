(** Proofs about automata: construction, unique symbols, closure. *)
From Verif Require Import Base OrdMap SymbolSetModel SymbolSetSpec SymbolSetProofs.
From Verif Require Import SymbolMapModel SymbolMapSpec SymbolMapProofs DedupProofs NdfaModel NdfaSpec.
Local Open Scope Z_scope.

Lemma trans_ltb_lt a b : trans_ltb a b = true <-> fst a < fst b \/ (fst a = fst b /\ (snd a < snd b)%nat).
Proof.
  unfold trans_ltb. destruct (Z.ltb_spec (fst a) (fst b)); [split; [intros _; left; lia|reflexivity]|].
  destruct (Z.ltb_spec (fst b) (fst a)); [split; [discriminate|lia]|].
  rewrite Nat.ltb_lt. lia.
Qed.

Lemma trans_strict : strict_total trans_ltb.
Proof.
  constructor.
  - intros a. destruct (trans_ltb a a) eqn:E; [|reflexivity]. apply trans_ltb_lt in E. lia.
  - intros a b c. rewrite !trans_ltb_lt. lia.
  - intros [a q] [b r]. rewrite !trans_ltb_lt. cbn [fst snd].
    destruct (Z.lt_trichotomy a b) as [H|[->|H]]; [right; left; lia| |right; right; lia].
    destruct (Nat.lt_trichotomy q r) as [H|[->|H]]; [right; left; lia|left; reflexivity|right; right; lia].
Qed.

Lemma setlex_strict : strict_total setlex.
Proof. apply lex_strict_total. apply natltb_strict. Qed.

Lemma set_nth_length {X} k (x : X) l : length (set_nth k x l) = length l.
Proof. revert k. induction l as [|a l IH]; intros [|k]; cbn; auto. Qed.

Lemma set_nth_same {X} k (x d : X) l : (k < length l)%nat -> nth k (set_nth k x l) d = x.
Proof. revert k. induction l as [|a l IH]; intros [|k] H; cbn in *; try lia; auto. apply IH. lia. Qed.

Lemma set_nth_other {X} k j (x d : X) l : j <> k -> nth j (set_nth k x l) d = nth j l d.
Proof. revert k j. induction l as [|a l IH]; intros [|k] [|j] H; cbn; auto; try lia. Qed.

Section Proofs.
  Context {A : Type} (eager : A -> bool).
  Implicit Types d : ndfa A.

  (** * Construction *)

  Lemma sm_of_snoc reqs s : sm_of (reqs ++ [s]) = snd (sm_identifier (sm_of reqs) s).
  Proof.
    unfold sm_of. generalize sm_empty. induction reqs as [|r reqs IH]; intros m; cbn [app sm_run].
    - cbn [fst]. destruct (sm_identifier m s) as [i m1]. reflexivity.
    - destruct (sm_identifier m r) as [i m1]. specialize (IH m1).
      destruct (sm_run m1 (reqs ++ [s])) as [m2 l]. destruct (sm_run m1 reqs) as [m3 l']. cbn [fst] in *. exact IH.
  Qed.

  Lemma sm_identifier_id m s : sm_inv m ->
    0 <= fst (sm_identifier m s) < sm_count (snd (sm_identifier m s)) /\
    sm_get (snd (sm_identifier m s)) (fst (sm_identifier m s)) = s /\
    sm_count m <= sm_count (snd (sm_identifier m s)) /\
    (forall i, 0 <= i < sm_count m -> sm_get (snd (sm_identifier m s)) i = sm_get m i).
  Proof.
    intros I. pose proof (sm_identifier_spec m s I) as H. destruct (sm_identifier m s) as [i m']. cbn [fst snd].
    destruct H as (I' & Hs & Hi & Hn & _).
    assert (L : (Z.to_nat i < length (sm_sets m'))%nat) by (apply nth_error_Some; congruence).
    split; [unfold sm_count; lia|]. split; [apply sm_get_nth; assumption|].
    assert (P : exists t, sm_sets m' = sm_sets m ++ t).
    { rewrite Hs. destruct (in_dec set_eq_dec s (sm_sets m)); [exists []; rewrite app_nil_r; reflexivity|eexists; reflexivity]. }
    destruct P as [t P]. split; [unfold sm_count; rewrite P, app_length; lia|].
    intros j Hj. apply sm_get_nth; [lia|]. rewrite P, nth_error_app1 by (unfold sm_count in Hj; lia).
    apply sm_get_in. exact Hj.
  Qed.

  Lemma get_state_out d q : (count_states d <= q)%nat -> get_state d q = [].
  Proof. intros H. unfold get_state. apply nth_overflow. exact H. Qed.

  Lemma do_op_ok d o : op_valid o -> ndfa_ok d -> ndfa_ok (do_op d o).
  Proof.
    intros Hv [OS OT OO OA]. destruct o as [|old s new|q a|q]; cbn [do_op op_valid] in *.
    - constructor; cbn [add_state snd n_symbols n_accept]; auto.
      + intros q id r. unfold get_state, count_states. cbn [n_states]. rewrite app_length. cbn [length].
        destruct (Nat.lt_ge_cases q (length (n_states d))) as [H|H].
        * rewrite app_nth1 by exact H. intros Hin. destruct (OT q id r Hin) as [H1 H2]. unfold count_states in H2. split; [exact H1|lia].
        * rewrite app_nth2 by exact H. destruct (q - length (n_states d))%nat as [|[|k]]; cbn; intros [].
      + intros q. unfold get_state. cbn [n_states].
        destruct (Nat.lt_ge_cases q (length (n_states d))) as [H|H].
        * rewrite app_nth1 by exact H. apply OO.
        * rewrite app_nth2 by exact H. destruct (q - length (n_states d))%nat as [|[|k]]; cbn; constructor.
    - unfold add_transition. destruct (Nat.leb (count_states d) old) eqn:E1; [constructor; auto|].
      destruct (Nat.leb (count_states d) new) eqn:E2; [constructor; auto|].
      destruct OS as (reqs & Hr & Es).
      pose proof (sm_of_inv reqs) as I. rewrite <- Es in I.
      pose proof (sm_identifier_id _ s I) as (H1 & H2 & H3 & H4).
      pose proof (sm_of_snoc reqs s) as Hsn. rewrite <- Es in Hsn.
      destruct (sm_identifier (n_symbols d) s) as [id sm]. cbn [fst snd] in *.
      constructor; cbn [state_add n_symbols n_accept].
      + exists (reqs ++ [s]). split; [|congruence]. apply Forall_app. split; [exact Hr|]. repeat constructor; apply Hv.
      + intros q i r. unfold get_state, count_states, state_add. cbn [n_states]. rewrite set_nth_length.
        destruct (Nat.eq_dec q old) as [->|Hn].
        * rewrite set_nth_same by (apply Nat.leb_gt in E1; exact E1).
          rewrite (sins_in _ trans_strict). intros [E|Hin].
          -- inv E. split; [exact H1|]. apply Nat.leb_gt in E2. exact E2.
          -- destruct (OT old i r Hin). split; [lia|assumption].
        * rewrite set_nth_other by exact Hn. intros Hin. destruct (OT q i r Hin). split; [lia|assumption].
      + intros q. unfold get_state, state_add. cbn [n_states]. destruct (Nat.eq_dec q old) as [->|Hn].
        * rewrite set_nth_same by (apply Nat.leb_gt in E1; exact E1). apply sins_sorted; [apply trans_strict|apply OO].
        * rewrite set_nth_other by exact Hn. apply OO.
      + exact OA.
    - constructor; cbn [n_symbols n_accept accept]; auto. apply mset_sorted; [apply natltb_strict|exact OA].
    - constructor; cbn [n_symbols n_accept clear_accept]; auto. apply mset_sorted; [apply natltb_strict|exact OA].
  Qed.

  Lemma ndfa_new_ok : @ndfa_ok A ndfa_new.
  Proof.
    constructor; cbn.
    - exists []. split; [constructor|reflexivity].
    - intros q id r. unfold get_state. cbn. destruct q as [|[|q]]; cbn; intros [].
    - intros q. unfold get_state. cbn. destruct q as [|[|q]]; constructor.
    - constructor.
  Qed.

  Lemma build_ok_lemma (ops : list (@op A)) : Forall op_valid ops -> ndfa_ok (build ops).
  Proof.
    unfold build. generalize ndfa_new_ok. generalize (@ndfa_new A).
    induction ops as [|o ops IH]; intros d Hd F; cbn [fold_left]; [exact Hd|].
    apply Forall_cons_iff in F as [F1 F2]. apply IH; [|exact F2]. apply do_op_ok; assumption.
  Qed.

  (** * Unique symbols *)

  Lemma unique_state_in m st t : In t (unique_state m st) <->
    exists s, In s st /\ snd t = snd s /\ In (fst t) (rm_new_symbols m (fst s)).
  Proof.
    unfold unique_state.
    assert (G1 : forall l (q : nat) acc, In t (fold_left (fun acc n => sins trans_ltb (n, q) acc) l acc) <->
              In t acc \/ (snd t = q /\ In (fst t) l)).
    { induction l as [|n l IH]; intros q acc; cbn [fold_left]; [cbn; tauto|].
      rewrite IH, (sins_in _ trans_strict). cbn [In]. destruct t as [i r]. cbn [fst snd]. 
      split; [intros [[H|H]|[H1 H2]]; auto; inv H; auto|].
      intros [H|[H1 [H2|H2]]]; subst; auto. }
    assert (G : forall l acc, In t (fold_left (fun acc (s : transition) =>
        fold_left (fun acc n => sins trans_ltb (n, snd s) acc) (rm_new_symbols m (fst s)) acc) l acc) <->
        In t acc \/ exists s, In s l /\ snd t = snd s /\ In (fst t) (rm_new_symbols m (fst s))).
    { induction l as [|s l IH]; intros acc; cbn [fold_left].
      - split; [auto|]. intros [H|(s & [] & _)]; exact H.
      - rewrite IH, G1. split.
        + intros [[H|H]|(s' & H)]; [auto| |].
          * right. exists s. cbn; tauto.
          * right. exists s'. cbn; tauto.
        + intros [H|(s' & [<-|H] & H')]; [auto|auto|]. right. exists s'. tauto. }
    rewrite G. cbn. split; [intros [[]|H]; exact H|auto].
  Qed.

  Lemma unique_state_sorted m st : ssorted trans_ltb (unique_state m st).
  Proof.
    unfold unique_state.
    assert (G1 : forall l (q : nat) acc, ssorted trans_ltb acc -> ssorted trans_ltb (fold_left (fun acc n => sins trans_ltb (n, q) acc) l acc)).
    { induction l as [|n l IH]; intros q acc H; cbn [fold_left]; [exact H|]. apply IH. apply sins_sorted; [apply trans_strict|exact H]. }
    assert (G : forall l acc, ssorted trans_ltb acc -> ssorted trans_ltb (fold_left (fun acc (s : transition) =>
        fold_left (fun acc n => sins trans_ltb (n, snd s) acc) (rm_new_symbols m (fst s)) acc) l acc)).
    { induction l as [|s l IH]; intros acc H; cbn [fold_left]; [exact H|]. apply IH. apply G1. exact H. }
    apply G. constructor.
  Qed.

  Lemma unique_get m d q : get_state (mkN (map (unique_state m) (n_states d)) (rm_map m) (n_accept d)) q = unique_state m (get_state d q).
  Proof.
    unfold get_state. cbn [n_states]. change (@nil transition) with (unique_state m []) at 1. apply map_nth.
  Qed.

  Lemma contains_nil x : contains [] x = false.
  Proof. reflexivity. Qed.

  Lemma ok_inv d : ndfa_ok d -> sm_inv (n_symbols d) /\ Forall wf (sm_sets (n_symbols d)).
  Proof.
    intros [(reqs & Hr & ->) _ _ _]. split; [apply sm_of_inv|apply sm_of_wf; exact Hr].
  Qed.

  Lemma dedup_history src m : deduplicate src = Some m -> exists reqs, rm_map m = sm_of reqs.
  Proof.
    unfold deduplicate. destruct (cells_of [] (sm_ids src)) as [c|]; [|discriminate]. intros H. inv H.
    assert (G : forall g m0, (exists reqs, rm_map m0 = sm_of reqs) ->
       exists reqs, rm_map (fold_left (fun m p => snd (rm_identifier m (snd p) (fst p))) g m0) = sm_of reqs).
    { induction g as [|p g IH]; intros m0 [reqs H]; cbn [fold_left]; [eauto|]. apply IH.
      exists (reqs ++ [snd p]). rewrite sm_of_snoc, <- H. unfold rm_identifier.
      destruct (sm_identifier (rm_map m0) (snd p)). reflexivity. }
    apply G. destruct (0 <=? sm_find src []).
    - exists [[]]. reflexivity.
    - exists []. reflexivity.
  Qed.

  Lemma normal_of_wf s : wf s -> (forall x, mem s x -> universe x) -> normal s.
  Proof.
    intros [H1 H2] Hu. split; [|exact H2]. rewrite Forall_forall in *. intros r Hr. specialize (H1 _ Hr). unfold ne in H1.
    assert (L : universe (lo r)) by (apply Hu; exists r; split; [exact Hr|unfold in_range; lia]).
    assert (U : universe (hi r - 1)) by (apply Hu; exists r; split; [exact Hr|unfold in_range; lia]).
    unfold universe, valid_range in *. lia.
  Qed.

  Lemma normal_universe s x : normal s -> mem s x -> universe x.
  Proof.
    intros [H1 _] (r & Hr & Hx). rewrite Forall_forall in H1. specialize (H1 _ Hr).
    unfold valid_range, in_range, universe in *. lia.
  Qed.

  Lemma sm_get_In m i : 0 <= i < sm_count m -> In (sm_get m i) (sm_sets m).
  Proof. intros H. eapply nth_error_In. apply sm_get_in. exact H. Qed.

  Lemma get_universe reqs i x : Forall normal reqs -> contains (sm_get (sm_of reqs) i) x = true -> universe x.
  Proof.
    intros H Hc. destruct (Z_lt_dec i 0) as [|Hi]; [rewrite sm_get_out in Hc by lia; discriminate|].
    destruct (Z_lt_dec i (sm_count (sm_of reqs))) as [Hi'|]; [|rewrite sm_get_out in Hc by lia; discriminate].
    pose proof (sm_get_In (sm_of reqs) i ltac:(lia)) as Hin. rewrite sm_of_sets, firsts_in in Hin.
    rewrite Forall_forall in H. specialize (H _ Hin). apply (normal_universe _ x H).
    apply contains_spec; [apply normal_wf; exact H|exact Hc].
  Qed.

  Lemma unique_path d m : ndfa_ok d -> is_partition (n_symbols d) m ->
    let d' := mkN (map (unique_state m) (n_states d)) (rm_map m) (n_accept d) in
    count_states d' = count_states d /\
    (forall q, actions_for_state d' q = actions_for_state d q) /\
    (forall q w q', path d' q w q' <-> path d q w q').
  Proof.
    intros [_ OT _ _] IP d'.
    assert (GS : forall q, get_state d' q = unique_state m (get_state d q)) by (intros q; apply unique_get).
    assert (CS : count_states d' = count_states d) by (unfold count_states; cbn [n_states]; apply map_length).
    split; [exact CS|]. split; [intros q; unfold actions_for_state; rewrite CS; reflexivity|].
    intros q w q'. split.
    + induction 1 as [q|q n r w q' Hin He Hp IH|q n r x w q' Hin Hc Hp IH]; [constructor| |].
      * rewrite GS in Hin. apply unique_state_in in Hin as ([id r0] & H1 & H2 & H3). cbn [fst snd] in *. subst r0.
        apply (path_eps _ q id r); [exact H1| |exact IH]. eapply (ip_epsilon_only _ _ IP); eauto.
      * rewrite GS in Hin. apply unique_state_in in Hin as ([id r0] & H1 & H2 & H3). cbn [fst snd] in *. subst r0.
        apply (path_sym _ q id r); [exact H1| |exact IH].
        apply (ip_union _ _ IP); [eapply OT; eauto|]. exists n. auto.
    + induction 1 as [q|q id r w q' Hin He Hp IH|q id r x w q' Hin Hc Hp IH]; [constructor| |].
      * destruct (ip_epsilon _ _ IP id) as (n & H1 & H2); [eapply OT; eauto|exact He|].
        apply (path_eps _ q n r); [|exact H2|exact IH]. rewrite GS. apply unique_state_in. exists (id, r).
        cbn [fst snd]. split; [exact Hin|]. split; [reflexivity|]. rewrite H1. cbn; auto.
      * apply (ip_union _ _ IP) in Hc as (n & H1 & H2); [|eapply OT; eauto].
        apply (path_sym _ q n r); [|exact H2|exact IH]. rewrite GS. apply unique_state_in. exists (id, r). auto.
  Qed.

  Theorem unique_lemma d : ndfa_ok d -> all_compatible (n_symbols d) ->
    exists d', to_ndfa_with_unique_symbols d = Some d' /\
      ndfa_ok d' /\ disjoint_symbols d' /\ verify_no_symbol_overlap d' = true /\
      count_states d' = count_states d /\
      (forall q, actions_for_state d' q = actions_for_state d q) /\
      (forall q w q', path d' q w q' <-> path d q w q').
  Proof.
    intros OK AC. destruct (ok_inv _ OK) as [I W].
    destruct (deduplicate_inv_wf _ I W AC) as (m & Em & IP & ND & Wn).
    pose proof OK as [(reqs & Hr & Es) OT OO OA].
    destruct (dedup_history _ _ Em) as [reqs' Em'].
    unfold to_ndfa_with_unique_symbols. rewrite Em. eexists. split; [reflexivity|].
    set (d' := mkN _ _ _).
    assert (GS : forall q, get_state d' q = unique_state m (get_state d q)) by (intros q; apply unique_get).
    assert (CS : count_states d' = count_states d) by (unfold count_states; cbn [n_states]; apply map_length).
    assert (UN : Forall normal reqs').
    { rewrite Forall_forall. intros s Hs. assert (Hin : In s (sm_sets (rm_map m))) by (rewrite Em', sm_of_sets; apply firsts_in; exact Hs).
      rewrite Forall_forall in Wn. apply normal_of_wf; [apply Wn; exact Hin|]. intros x Hx.
      destruct (In_nth_error _ _ Hin) as [k Hk].
      assert (C : contains (sm_get (rm_map m) (Z.of_nat k)) x = true).
      { rewrite (sm_get_nth _ _ s); [|lia|rewrite Nat2Z.id; exact Hk]. apply contains_spec; [apply Wn; exact Hin|exact Hx]. }
      destruct (proj1 (ip_coarsest _ _ IP x x)) as [(id & Hid) _]; [exists (Z.of_nat k); auto|].
      rewrite Es in Hid. eapply get_universe; eauto. }
    split; [|split; [|split; [|exact (unique_path d m OK IP)]]].
    - constructor.
      + exists reqs'. split; [exact UN|exact Em'].
      + intros q id r. rewrite GS. intros H. apply unique_state_in in H as ([id0 r0] & H1 & H2 & H3). cbn [fst snd] in *. subst r0.
        split; [eapply (ip_ids _ _ IP); eauto|]. rewrite CS. eapply OT; eauto.
      + intros q. rewrite GS. apply unique_state_sorted.
      + exact OA.
    - intros i j x. apply (ip_disjoint _ _ IP).
    - unfold verify_no_symbol_overlap. cbn [n_symbols]. unfold d'. cbn [n_symbols]. rewrite ND. reflexivity.
  Qed.

  Lemma unique_partition_lemma d m : ndfa_ok d -> deduplicate (n_symbols d) = Some m -> is_partition (n_symbols d) m ->
    exists d', to_ndfa_with_unique_symbols d = Some d' /\ disjoint_symbols d' /\
      count_states d' = count_states d /\
      (forall q, actions_for_state d' q = actions_for_state d q) /\
      (forall q w q', path d' q w q' <-> path d q w q').
  Proof.
    intros OK Em IP. unfold to_ndfa_with_unique_symbols. rewrite Em. eexists. split; [reflexivity|].
    split; [|exact (unique_path d m OK IP)]. intros i j x. apply (ip_disjoint _ _ IP).
  Qed.

  Lemma verify_no_overlap_spec d : ndfa_ok d -> verify_no_symbol_overlap d = true <-> disjoint_symbols d.
  Proof.
    intros [(reqs & Hr & E) _ _ _]. unfold verify_no_symbol_overlap, disjoint_symbols. rewrite E.
    pose proof (has_duplicates_lemma reqs Hr) as H. destruct (sm_has_duplicates (sm_of reqs)).
    - destruct (proj1 H eq_refl) as (i & j & x & Hn & H1 & H2). split; [discriminate|]. intros D. exfalso. eauto.
    - split; [|reflexivity]. intros _ i j x H1 H2. destruct (Z.eq_dec i j) as [|Hn]; [assumption|].
      assert (false = true) by (apply H; eauto 6). discriminate.
  Qed.

  (** * Closure *)

  Definition epath d (q r : nat) : Prop := path d q [] r.

  Lemma epath_trans d q r s : path d q [] r -> path d r [] s -> path d q [] s.
  Proof.
    intros H. remember (@nil Z) as w eqn:E. revert E. induction H; intros E H'; [exact H'| |discriminate].
    eapply path_eps; eauto.
  Qed.

  Lemma epath_app d q w r s : path d q [] r -> path d r w s -> path d q w s.
  Proof.
    intros H. remember (@nil Z) as v eqn:E. revert E. induction H; intros E H'; [exact H'| |discriminate].
    eapply path_eps; eauto.
  Qed.

  Lemma eps_id_spec d : sm_inv (n_symbols d) -> forall id, 0 <= id < sm_count (n_symbols d) ->
    (id = eps_id d <-> sm_get (n_symbols d) id = []).
  Proof.
    intros I id Hid. unfold eps_id, sm_identifier.
    destruct (mfind set_ltb [] (sm_ids (n_symbols d))) as [i|] eqn:E.
    - apply (sm_find_some _ _ I) in E as [E1 E2]. cbn [fst]. split.
      + intros ->. apply sm_get_nth; assumption.
      + intros H. pose proof (sm_get_in _ _ Hid) as H2. rewrite H in H2.
        assert (Z.to_nat id = Z.to_nat i); [|lia].
        apply (proj1 (NoDup_nth_error _) (si_nodup _ I)); [apply nth_error_Some; congruence|congruence].
    - apply (sm_find_none _ _ I) in E. cbn [fst]. split.
      + intros ->. unfold sm_count in Hid. lia.
      + intros H. exfalso. apply E. rewrite <- H. apply sm_get_In. exact Hid.
  Qed.

  Lemma smem_nat_in l q : ssorted Nat.ltb l -> smem Nat.ltb q l = true <-> In q l.
  Proof. intros H. apply smem_in; [apply natltb_strict|exact H]. Qed.

  Lemma round_inner d l : forall st ad, ssorted Nat.ltb st -> ssorted Nat.ltb ad ->
    let '(st', ad') := fold_left (fun acc (t : transition) =>
        let '(states, added) := acc in
        if negb (fst t =? eps_id d) then acc
        else if smem Nat.ltb (snd t) states then acc
        else (sins Nat.ltb (snd t) states, sins Nat.ltb (snd t) added)) l (st, ad) in
    ssorted Nat.ltb st' /\ ssorted Nat.ltb ad' /\
    (forall q, In q st' <-> In q st \/ In (eps_id d, q) l) /\
    (forall q, In q ad' <-> In q ad \/ (In q st' /\ ~ In q st)).
  Proof.
    induction l as [|[id r] l IH]; intros st ad Hs Ha; cbn [fold_left].
    - repeat split; auto; intros; try tauto. destruct H as [H|[]]; exact H.
    - cbn [fst snd]. destruct (negb (id =? eps_id d)) eqn:E1.
      + specialize (IH st ad Hs Ha). destruct (fold_left _ l (st, ad)) as [st' ad'].
        destruct IH as (H1 & H2 & H3 & H4). split; [exact H1|]. split; [exact H2|]. split; [|exact H4].
        intros q. rewrite H3. cbn [In]. split; [tauto|]. intros [H|[H|H]]; auto. inv H. lia.
      + assert (id = eps_id d) by lia. subst id. destruct (smem Nat.ltb r st) eqn:E2.
        * apply (smem_nat_in _ _ Hs) in E2. specialize (IH st ad Hs Ha). destruct (fold_left _ l (st, ad)) as [st' ad'].
          destruct IH as (H1 & H2 & H3 & H4). split; [exact H1|]. split; [exact H2|]. split; [|exact H4].
          intros q. rewrite H3. cbn [In]. split; [tauto|]. intros [H|[H|H]]; auto. inv H. auto.
        * assert (E2' : ~ In r st) by (intros H; apply (smem_nat_in _ _ Hs) in H; congruence).
          specialize (IH (sins Nat.ltb r st) (sins Nat.ltb r ad) (sins_sorted _ natltb_strict _ Hs r) (sins_sorted _ natltb_strict _ Ha r)).
          destruct (fold_left _ l (sins Nat.ltb r st, sins Nat.ltb r ad)) as [st' ad'].
          destruct IH as (H1 & H2 & H3 & H4). split; [exact H1|]. split; [exact H2|]. split.
          -- intros q. rewrite H3, (sins_in _ natltb_strict). cbn [In]. split.
             ++ intros [[->|H]|H]; auto.
             ++ intros [H|[H|H]]; auto. inv H. auto.
          -- intros q. rewrite H4, !(sins_in _ natltb_strict). rewrite H3, (sins_in _ natltb_strict).
             destruct (Nat.eq_dec q r) as [->|Hn]; [|tauto]. split; [intros _; right; split; [auto|exact E2']|].
             intros [H|H]; auto.
  Qed.

  Lemma closure_round_spec d st new : ssorted Nat.ltb st ->
    let '(st', ad) := closure_round d st new in
    ssorted Nat.ltb st' /\ ssorted Nat.ltb ad /\
    (forall q, In q st' <-> In q st \/ exists r, In r new /\ In (eps_id d, q) (get_state d r)) /\
    (forall q, In q ad <-> In q st' /\ ~ In q st).
  Proof.
    intros Hs. unfold closure_round.
    assert (G : forall new st0 ad, ssorted Nat.ltb st0 -> ssorted Nat.ltb ad ->
      let '(st', ad') := fold_left (fun acc q => fold_left (fun acc (t : transition) =>
        let '(states, added) := acc in
        if negb (fst t =? eps_id d) then acc
        else if smem Nat.ltb (snd t) states then acc
        else (sins Nat.ltb (snd t) states, sins Nat.ltb (snd t) added)) (get_state d q) acc) new (st0, ad) in
      ssorted Nat.ltb st' /\ ssorted Nat.ltb ad' /\
      (forall q, In q st' <-> In q st0 \/ exists r, In r new /\ In (eps_id d, q) (get_state d r)) /\
      (forall q, In q ad' <-> In q ad \/ (In q st' /\ ~ In q st0))).
    { clear. induction new as [|n new IH]; intros st ad Hs Ha; cbn [fold_left].
      - split; [exact Hs|]. split; [exact Ha|]. split; intros q; [|tauto].
        split; [auto|]. intros [H|(r & [] & _)]; exact H.
      - pose proof (round_inner d (get_state d n) st ad Hs Ha) as RI.
        destruct (fold_left _ (get_state d n) (st, ad)) as [st1 ad1]. destruct RI as (R1 & R2 & R3 & R4).
        specialize (IH st1 ad1 R1 R2). destruct (fold_left _ new (st1, ad1)) as [st2 ad2].
        destruct IH as (H1 & H2 & H3 & H4). split; [exact H1|]. split; [exact H2|]. split.
        + intros q. rewrite H3, R3. cbn [In]. split.
          * intros [[H|H]|(r & H & H')]; [auto|right; exists n; auto|right; exists r; auto].
          * intros [H|(r & [<-|H] & H')]; [auto|auto|right; exists r; auto].
        + intros q. rewrite H4, R4. pose proof (H3 q) as H3q. pose proof (R3 q) as R3q.
          assert (D : In q st1 \/ ~ In q st1) by (destruct (in_dec Nat.eq_dec q st1); auto). tauto. }
    specialize (G new st [] Hs ltac:(constructor)). destruct (fold_left _ new (st, [])) as [st' ad].
    destruct G as (H1 & H2 & H3 & H4). split; [exact H1|]. split; [exact H2|]. split; [exact H3|].
    intros q. rewrite H4. cbn [In]. tauto.
  Qed.

  Lemma NoDup_ssorted l : ssorted Nat.ltb l -> NoDup l.
  Proof.
    induction l as [|a l IH]; intros H; [constructor|]. apply ssorted_cons in H as [H1 H2]. constructor; [|auto].
    intros Hin. specialize (H2 _ Hin). lia.
  Qed.

  Lemma ssorted_length l n : ssorted Nat.ltb l -> (forall q, In q l -> (q < n)%nat) -> (length l <= n)%nat.
  Proof.
    intros H1 H2. rewrite <- (seq_length n 0). apply NoDup_incl_length; [apply NoDup_ssorted; exact H1|].
    intros q Hq. apply in_seq. specialize (H2 _ Hq). lia.
  Qed.

  Lemma closed_epath d st : ndfa_ok d ->
    (forall q r, In q st -> In (eps_id d, r) (get_state d q) -> In r st) ->
    forall s q, path d s [] q -> In s st -> In q st.
  Proof.
    intros OK Hc s q H. destruct (ok_inv _ OK) as [I _]. remember (@nil Z) as w eqn:E. revert E.
    induction H as [q|q id r v q' Hin He Hpp IHp|]; intros E; [auto| |discriminate].
    intros Hq. apply (IHp E). apply (Hc q r Hq).
    pose proof (ok_trans _ OK _ _ _ Hin) as [Hid _]. apply (eps_id_spec _ I) in He; [|exact Hid]. subst id. exact Hin.
  Qed.

  Lemma closure_loop_spec d : ndfa_ok d -> forall fuel S0 st new,
    ssorted Nat.ltb st -> (forall q, In q st -> (q < count_states d)%nat) ->
    (forall q, In q new -> In q st) ->
    (forall q, In q S0 -> In q st) ->
    (forall q, In q st -> exists s, In s S0 /\ path d s [] q) ->
    (forall q r, In q st -> ~ In q new -> In (eps_id d, r) (get_state d q) -> In r st) ->
    (count_states d < fuel + length st \/ (new = [] ))%nat ->
    exists st', closure_loop fuel d st new = Some st' /\ ssorted Nat.ltb st' /\
      (forall q, In q st' -> (q < count_states d)%nat) /\
      (forall q, In q st' <-> exists s, In s S0 /\ path d s [] q).
  Proof.
    intros OK. destruct (ok_inv _ OK) as [I _]. induction fuel as [|fuel IH]; intros S0 st new Hs Hb Hn H0 Hp Hc Hf.
    - assert (new = []) as ->.
      { destruct Hf as [Hf|Hf]; [|exact Hf]. pose proof (ssorted_length st (count_states d) Hs Hb). lia. }
      cbn [closure_loop]. exists st. split; [reflexivity|]. split; [exact Hs|]. split; [exact Hb|].
      pose proof (closed_epath d st OK (fun q r Hq => Hc q r Hq (fun H => H))) as CL.
      intros q. split; [apply Hp|]. intros (s & H1 & H2). eapply CL; eauto.
    - cbn [closure_loop]. destruct new as [|n new].
      + exists st. split; [reflexivity|]. split; [exact Hs|]. split; [exact Hb|].
        pose proof (closed_epath d st OK (fun q r Hq => Hc q r Hq (fun H => H))) as CL.
        intros q. split; [apply Hp|]. intros (s & H1 & H2). eapply CL; eauto.
      + pose proof (closure_round_spec d st (n :: new) Hs) as R.
        destruct (closure_round d st (n :: new)) as [st' ad]. destruct R as (R1 & R2 & R3 & R4).
        apply IH.
        * exact R1.
        * intros q Hq. apply R3 in Hq as [Hq|(r & _ & Hin)]; [auto|]. apply (ok_trans _ OK) in Hin. apply Hin.
        * intros q Hq. apply R4 in Hq. apply Hq.
        * intros q Hq. apply R3. auto.
        * intros q Hq. apply R3 in Hq as [Hq|(r & Hr & Hin)]; [auto|]. apply Hn in Hr. destruct (Hp _ Hr) as (s & Hs0 & Hps).
          exists s. split; [exact Hs0|]. eapply epath_trans; [exact Hps|]. eapply path_eps; [exact Hin| |constructor].
          apply (eps_id_spec _ I); [|reflexivity]. apply (ok_trans _ OK) in Hin. apply Hin.
        * intros q r Hq Hna Hin. destruct (in_dec Nat.eq_dec q st) as [Hq'|Hq'].
          -- destruct (in_dec Nat.eq_dec q (n :: new)) as [Hnn|Hnn].
             ++ apply R3. right. exists q. auto.
             ++ apply R3. left. eapply Hc; eauto.
          -- exfalso. apply Hna. apply R4. auto.
        * destruct Hf as [Hf|Hf]; [|discriminate]. destruct ad as [|a ad]; [right; reflexivity|left].
          assert (L : (length st < length st')%nat).
          { assert (Ha : In a st' /\ ~ In a st) by (apply R4; cbn; auto).
            assert (NoDup (a :: st)) by (constructor; [apply Ha|apply NoDup_ssorted; exact Hs]).
            apply (NoDup_incl_length (l := a :: st) (l' := st')) in H; [cbn in H; lia|].
            intros q [<-|Hq]; [apply Ha|]. apply R3. auto. }
          lia.
  Qed.

  Lemma closure_spec d S0 : ndfa_ok d -> ssorted Nat.ltb S0 -> (forall q, In q S0 -> (q < count_states d)%nat) ->
    exists st', closure d S0 = Some st' /\ ssorted Nat.ltb st' /\
      (forall q, In q st' -> (q < count_states d)%nat) /\
      (forall q, In q st' <-> exists s, In s S0 /\ path d s [] q).
  Proof.
    intros OK Hs Hb. unfold closure. apply closure_loop_spec; auto.
    - intros q Hq. exists q. split; [exact Hq|constructor].
    - intros q r Hq Hn. contradiction.
    - lia.
  Qed.
End Proofs.
