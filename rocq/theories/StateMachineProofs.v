(** Proofs about state machines. *)
From Verif Require Import Base OrdMap BinSearch SymbolSetModel SymbolSetSpec SymbolSetProofs SymbolMapModel SymbolMapSpec SymbolMapProofs.
From Verif Require Import NdfaModel NdfaSpec NdfaProofs ToDfaProofs CompactProofs HardTableProofs SymbolTableModel SymbolTableSpec SymbolTableProofs StateMachineModel StateMachineSpec.
Local Open Scope Z_scope.

(** * Rows *)

Lemma flat_fold st : forall row0, (forall t, In t st -> 0 <= fst t < Z.of_nat (length row0)) ->
  exists row, fold_left flat_write st (Some row0) = Some row /\ length row = length row0 /\
    forall id, 0 <= id < Z.of_nat (length row0) ->
      (exists r, In (id, r) st /\ nth (Z.to_nat id) row (-1) = Z.of_nat r) \/
      ((forall r, ~ In (id, r) st) /\ nth (Z.to_nat id) row (-1) = nth (Z.to_nat id) row0 (-1)).
Proof.
  induction st as [|t st IH]; intros row0 H; cbn [fold_left].
  - exists row0. split; [reflexivity|]. split; [reflexivity|]. intros id Hid. right. split; [intros r []|reflexivity].
  - pose proof (H t ltac:(cbn; auto)) as Ht. cbn [flat_write]. replace ((fst t <? 0) || (Z.of_nat (length row0) <=? fst t)) with false by lia.
    destruct (IH (set_nth (Z.to_nat (fst t)) (Z.of_nat (snd t)) row0)) as (row & E & L & V).
    { intros t' Ht'. rewrite set_nth_length. apply H. cbn; auto. }
    exists row. rewrite set_nth_length in *. split; [exact E|]. split; [exact L|]. intros id Hid. destruct (V id Hid) as [(r & R1 & R2)|(R1 & R2)].
    + left. exists r. split; [cbn; auto|exact R2].
    + rewrite R2. destruct (Z.eq_dec id (fst t)) as [->|N].
      * left. exists (snd t). split; [left; apply surjective_pairing|]. apply set_nth_same. lia.
      * right. split; [|apply set_nth_other; lia]. intros r [E'|E']; [|apply (R1 r E')]. rewrite E' in N. apply N. reflexivity.
Qed.

Lemma flat_row_spec maxSet st : (forall t, In t st -> 0 <= fst t < maxSet) -> forall id, 0 <= id < maxSet ->
  exists row, flat_fill maxSet st = Some row /\
  exists v, flat_get row id = Some v /\ ((exists r, In (id, r) st /\ v = Z.of_nat r) \/ ((forall r, ~ In (id, r) st) /\ v = -1)).
Proof.
  intros H id Hid. unfold flat_fill. destruct (flat_fold st (repeat (-1) (Z.to_nat maxSet))) as (row & E & L & V).
  { intros t Ht. rewrite repeat_length. specialize (H t Ht). lia. }
  exists row. split; [exact E|]. rewrite repeat_length in *. unfold flat_get. replace (id <? 0) with false by lia.
  exists (nth (Z.to_nat id) row (-1)). split; [apply nth_error_nth'; lia|].
  destruct (V id ltac:(lia)) as [X|(X & Y)]; [left; exact X|right]. split; [exact X|]. rewrite Y. apply nth_repeat.
Qed.

Lemma compact_get_spec row id : StronglySorted (fun a b : transition => fst a <= fst b) row ->
  (exists r, In (id, r) row /\ compact_get row id = Z.of_nat r) \/ ((forall r, ~ In (id, r) row) /\ compact_get row id = -1).
Proof.
  intros HS. unfold compact_get, transition in *.
  set (less := fun i => match nth_error row i with Some t => fst t <? id | None => false end).
  assert (ORD : forall i j a b, (i < j)%nat -> nth_error row i = Some a -> nth_error row j = Some b -> fst a <= fst b).
  { clear less. induction HS as [|x l HS IH HF]; intros i j a b Hij Ha Hb; [destruct i; discriminate|].
    rewrite Forall_forall in HF. destruct j as [|j]; [lia|]. destruct i as [|i]; cbn in Ha, Hb.
    - inversion Ha; subst. apply HF. eapply nth_error_In. exact Hb.
    - eapply (IH i j); eauto. lia. }
  destruct (lower_bound_pos_spec less (length row)) as (P1 & P2 & P3).
  { intros i j Hij Hj Lj. unfold less in *. destruct (nth_error row j) as [b|] eqn:Eb; [|discriminate].
    destruct (nth_error row i) as [a|] eqn:Ea; [|apply nth_error_None in Ea; lia]. pose proof (ORD _ _ _ _ Hij Ea Eb). lia. }
  set (p := lower_bound_pos less (length row)) in *.
  destruct (nth_error row p) as [t|] eqn:Et.
  - destruct (Z.eqb_spec (fst t) id) as [E|E]; cbn [negb].
    + left. exists (snd t). split; [|reflexivity]. rewrite <- E, <- surjective_pairing. eapply nth_error_In. exact Et.
    + right. split; [|reflexivity]. intros r Hr. apply In_nth_error in Hr as [j Hj].
      assert (Lp : less p = false). { apply P3; [lia|]. apply nth_error_Some. congruence. }
      unfold less in Lp. rewrite Et in Lp.
      assert (Hn : (j < p \/ j = p \/ p < j)%nat) by lia. destruct Hn as [Hn|[->|Hn]].
      * specialize (P2 j Hn). unfold less in P2. rewrite Hj in P2. cbn [fst] in P2. lia.
      * rewrite Hj in Et. inversion Et; subst. cbn in E. congruence.
      * pose proof (ORD _ _ _ _ Hn Et Hj). cbn [fst] in *. lia.
  - right. split; [|reflexivity]. intros r Hr. apply In_nth_error in Hr as [j Hj].
    assert (j < length row)%nat by (apply nth_error_Some; congruence). apply nth_error_None in Et.
    specialize (P2 j ltac:(lia)). unfold less in P2. rewrite Hj in P2. cbn [fst] in P2. lia.
Qed.

(** * Machines *)

Definition flat_rows {A} (d : ndfa A) : list (option (list Z)) := map (flat_fill (sm_count (n_symbols d))) (n_states d).

Section Machine.
  Context {A : Type}.
  Variable d : ndfa A.
  Hypothesis OK : ndfa_ok d.
  Hypothesis DJ : disjoint_symbols d.
  Hypothesis DET : deterministic d.

  Lemma state_ids q t : In t (get_state d q) -> 0 <= fst t < sm_count (n_symbols d).
  Proof. destruct t as [id r]. intros H. apply (ok_trans _ OK) in H. apply H. Qed.

  Lemma moves_fun q c r r' : moves d q c r -> moves d q c r' -> r = r'.
  Proof.
    intros [(i & s & H1 & H2 & ->)|(-> & H)] [(i' & s' & H1' & H2' & ->)|(-> & H')]; auto.
    - f_equal. eapply (proj2 DET); eauto.
    - rewrite (H' _ _ H1) in H2. discriminate.
    - rewrite (H _ _ H1') in H2'. discriminate.
  Qed.

  (** The value stored for a set decides the move. *)
  Lemma stored_moves q c id v : lookup_exact (n_symbols d) c id -> 0 <= id ->
    ((exists r, In (id, r) (get_state d q) /\ v = Z.of_nat r) \/ ((forall r, ~ In (id, r) (get_state d q)) /\ v = -1)) ->
    moves d q c v.
  Proof.
    intros [[H1 H2]|[H1 _]] H0 HV; [|lia]. destruct HV as [(r & R1 & ->)|(R1 & ->)].
    - left. exists id, r. auto.
    - right. split; [reflexivity|]. intros id' r' Hin. destruct (contains (sm_get (n_symbols d) id') c) eqn:E; [|reflexivity].
      exfalso. assert (id' = id) by (eapply DJ; eauto). subst id'. apply (R1 r' Hin).
  Qed.

  Lemma no_set_moves q c : lookup_exact (n_symbols d) c (-1) -> moves d q c (-1).
  Proof. intros [[H _]|[_ H]]; [lia|]. right. split; [reflexivity|]. intros. apply H. Qed.

  Lemma exact_range c id : lookup_exact (n_symbols d) c id -> id = -1 \/ 0 <= id < sm_count (n_symbols d).
  Proof. intros [[H _]|[H _]]; auto. Qed.

  Theorem flat_machine_lemma rows translate q c : flat_machine d rows -> (q < count_states d)%nat -> lookup_exact (n_symbols d) c (translate c) ->
    exists r, run_unsafe flat_get rows translate (Z.of_nat q) c = Some r /\ moves d q c r.
  Proof.
    intros [L F] Hq T. unfold run_unsafe. destruct (exact_range _ _ T) as [E|E].
    - rewrite E in *. exists (-1). split; [reflexivity|]. apply no_set_moves. exact T.
    - destruct (Z.eqb_spec (translate c) (-1)); [lia|]. replace (Z.of_nat q <? 0) with false by lia. rewrite Nat2Z.id.
      destruct (nth_error rows q) as [row|] eqn:Er; [|apply nth_error_None in Er; lia].
      destruct (flat_row_spec (sm_count (n_symbols d)) (get_state d q)) with (id := translate c) as (row' & E1 & v & E2 & V); [apply state_ids|exact E|].
      rewrite (F q row Er) in E1. inversion E1; subst row'. exists v. split; [exact E2|]. eapply stored_moves; eauto. lia.
  Qed.

  Lemma flat_machine_exists : exists rows, flat_machine d rows.
  Proof.
    assert (H : forall st, In st (n_states d) -> exists row, flat_fill (sm_count (n_symbols d)) st = Some row).
    { intros st Hst. apply In_nth_error in Hst as [q Hq].
      destruct (flat_fold st (repeat (-1) (Z.to_nat (sm_count (n_symbols d))))) as (row & E & _).
      - intros t Ht. rewrite repeat_length. assert (G : In t (get_state d q)) by (unfold get_state; rewrite (nth_error_nth _ _ _ Hq); exact Ht).
        apply state_ids in G. lia.
      - exists row. exact E. }
    unfold flat_machine, count_states, get_state. revert H. generalize (n_states d). intros sts. induction sts as [|st sts IH]; intros H.
    - exists []. split; [reflexivity|]. intros [|q] row E; discriminate.
    - destruct IH as (rows & L & F); [intros; apply H; cbn; auto|]. destruct (H st ltac:(cbn; auto)) as [row Er].
      exists (row :: rows). split; [cbn; congruence|]. intros [|q] r E; cbn [nth_error nth] in *; [inversion E; subst; exact Er|apply F; exact E].
  Qed.

  Theorem compact_machine_lemma rows translate q c : compact_machine d rows -> (q < count_states d)%nat -> lookup_exact (n_symbols d) c (translate c) ->
    exists r, run_unsafe (fun row set => Some (compact_get row set)) rows translate (Z.of_nat q) c = Some r /\ moves d q c r.
  Proof.
    intros [L F] Hq T. unfold run_unsafe. destruct (exact_range _ _ T) as [E|E].
    - rewrite E in *. exists (-1). split; [reflexivity|]. apply no_set_moves. exact T.
    - destruct (Z.eqb_spec (translate c) (-1)); [lia|]. replace (Z.of_nat q <? 0) with false by lia. rewrite Nat2Z.id.
      destruct (nth_error rows q) as [row|] eqn:Er; [|apply nth_error_None in Er; lia].
      destruct (F q row Er) as (P & _ & S). eexists. split; [reflexivity|]. eapply stored_moves; [exact T|lia|].
      destruct (compact_get_spec row (translate c) S) as [(r & R1 & R2)|(R1 & R2)].
      + left. exists r. split; [apply P; exact R1|exact R2].
      + right. split; [|exact R2]. intros r Hr. apply (R1 r). apply P. exact Hr.
  Qed.

  Lemma compact_machine_exists : compact_machine d (n_states d).
  Proof.
    split; [reflexivity|]. intros q row E. unfold get_state. rewrite (nth_error_nth _ _ _ E). split; [tauto|]. split; [reflexivity|].
    pose proof (ok_sorted _ OK q) as S. unfold get_state in S. rewrite (nth_error_nth _ _ _ E) in S.
    eapply SS_weaken; [|exact S]. intros a b _ _ H. cbv beta in H. unfold trans_ltb in H. destruct (Z.ltb_spec (fst a) (fst b)); [lia|].
    destruct (Z.ltb_spec (fst b) (fst a)); [discriminate|lia].
  Qed.

  (** Running from one state to the next: paths. *)
  Lemma moves_path q c r : moves d q c r -> 0 <= r -> path d q [c] (Z.to_nat r).
  Proof.
    intros [(id & r' & H1 & H2 & ->)|(-> & _)] H; [|lia]. rewrite Nat2Z.id. eapply path_sym; eauto. apply path_nil.
  Qed.

  Lemma path_det_cons q c w q' : path d q (c :: w) q' -> exists r, moves d q c (Z.of_nat r) /\ path d r w q'.
  Proof.
    intros H. remember (c :: w) as cw eqn:E. destruct H as [q|q id r w0 q' H1 H2 H3|q id r x w0 q' H1 H2 H3]; [discriminate| |].
    - exfalso. eapply (proj1 DET); eauto.
    - inversion E; subst. exists r. split; [|exact H3]. left. eauto.
  Qed.

  Lemma path_det_nil q q' : path d q [] q' -> q' = q.
  Proof.
    intros H. remember (@nil Z) as w eqn:E. destruct H as [q|q id r w0 q' H1 H2 H3|q id r x w0 q' H1 H2 H3]; [reflexivity| |discriminate].
    exfalso. eapply (proj1 DET); eauto.
  Qed.

  Lemma moves_target q c r : moves d q c r -> r = -1 \/ 0 <= r < Z.of_nat (count_states d).
  Proof. intros [(id & r' & H1 & H2 & ->)|(-> & _)]; [right; apply (ok_trans _ OK) in H1; lia|auto]. Qed.
End Machine.

(** Reading a word. *)
Lemma run_word_stop step q w : q < 0 -> run_word step q w = Some q.
Proof. intros H. destruct w; cbn; [reflexivity|]. replace (q <? 0) with true by lia. reflexivity. Qed.

Lemma run_word_app step w1 : forall q w2, run_word step q (w1 ++ w2) =
  match run_word step q w1 with Some s => run_word step s w2 | None => None end.
Proof.
  induction w1 as [|c w1 IH]; intros q w2; cbn; [reflexivity|]. destruct (q <? 0) eqn:E; [|destruct (step q c); auto].
  symmetry. apply run_word_stop. lia.
Qed.

Section Words.
  Context {A : Type}.
  Variable d : ndfa A.
  Hypothesis OK : ndfa_ok d.
  Hypothesis DET : deterministic d.
  Variable step : Z -> Z -> option Z.

  Theorem run_word_lemma w : forall q, (q < count_states d)%nat ->
    (forall q c, (q < count_states d)%nat -> In c w -> exists r, step (Z.of_nat q) c = Some r /\ moves d q c r) ->
    exists r, run_word step (Z.of_nat q) w = Some r /\ (r = -1 \/ 0 <= r < Z.of_nat (count_states d)) /\
      forall q', path d q w q' <-> r = Z.of_nat q'.
  Proof.
    induction w as [|c w IH]; intros q Hq H.
    - exists (Z.of_nat q). split; [reflexivity|]. split; [lia|]. intros q'. split.
      + intros P. f_equal. symmetry. eapply path_det_nil; eauto.
      + intros E. apply Nat2Z.inj in E. subst. apply path_nil.
    - destruct (H q c Hq ltac:(cbn; auto)) as (r & E & M). cbn [run_word]. replace (Z.of_nat q <? 0) with false by lia. rewrite E.
      destruct (moves_target d OK q c r M) as [->|B].
      + exists (-1). split; [apply run_word_stop; lia|]. split; [auto|]. intros q'. split; [|lia].
        intros P. destruct (path_det_cons d DET _ _ _ _ P) as (r' & M' & _). pose proof (moves_fun d DET _ _ _ _ M M'). lia.
      + destruct (IH (Z.to_nat r)) as (r' & E' & B' & P'); [lia|intros; apply H; cbn; auto|]. rewrite Z2Nat.id in E' by lia.
        exists r'. split; [exact E'|]. split; [exact B'|]. intros q'. rewrite <- P'. split.
        * intros P. destruct (path_det_cons d DET _ _ _ _ P) as (s & M' & Ps). pose proof (moves_fun d DET _ _ _ _ M M'). subst r.
          rewrite Nat2Z.id. exact Ps.
        * intros P. destruct M as [(id & s & M1 & M2 & ->)|(-> & _)]; [|lia]. rewrite Nat2Z.id in P. eapply path_sym; eauto.
  Qed.

  (** Acceptance in terms of the machine. *)
  Corollary run_word_accepts w q : (q < count_states d)%nat ->
    (forall q c, (q < count_states d)%nat -> In c w -> exists r, step (Z.of_nat q) c = Some r /\ moves d q c r) ->
    forall a, accepts d q w a <-> exists r, run_word step (Z.of_nat q) w = Some (Z.of_nat r) /\ In a (actions_for_state d r).
  Proof.
    intros Hq H a. destruct (run_word_lemma w q Hq H) as (r & E & _ & P). split.
    - intros (q' & P' & Ha). apply P in P'. subst r. eauto.
    - intros (r' & E' & Ha). rewrite E in E'. inversion E'; subst r. exists r'. split; [apply P; reflexivity|exact Ha].
  Qed.
End Words.

(** * Generated tables *)

Definition before (sts : list (list transition)) (i : nat) : nat := length (concat (firstn i sts)).

Lemma pad_spec n e : forall offs, pad n e offs = offs ++ repeat e n.
Proof. induction n as [|n IH]; intros offs; cbn; [rewrite app_nil_r; reflexivity|]. rewrite IH, <- app_assoc. reflexivity. Qed.

Lemma gen_same q ts : forall entries offs, fold_left gen_step (map (fun t => (q, t)) ts) (entries, offs, Some q) = (entries ++ ts, offs, Some q).
Proof.
  induction ts as [|t ts IH]; intros entries offs; cbn [map fold_left].
  - rewrite app_nil_r. reflexivity.
  - cbn [gen_step]. rewrite Nat.eqb_refl. cbn [negb]. rewrite IH, <- app_assoc. reflexivity.
Qed.

Definition gen_fold (sts : list (list transition)) :=
  fold_left gen_step (flat_map (fun q => map (fun t => (q, t)) (nth q sts [])) (seq 0 (length sts))) ([], [0%nat], None).

Lemma before_app sts st i : (i <= length sts)%nat -> before (sts ++ [st]) i = before sts i.
Proof. intros H. unfold before. rewrite firstn_app. replace (i - length sts)%nat with 0%nat by lia. rewrite app_nil_r. reflexivity. Qed.

Lemma concat_empty {X} (l : list (list X)) : (forall q, nth q l [] = []) -> concat l = [].
Proof. induction l as [|x l IH]; intros H; [reflexivity|]. cbn. rewrite (H 0%nat : x = []). cbn. apply IH. intros q. apply (H (S q)). Qed.

Lemma nth_skipn {X} (n q : nat) (l : list X) d : nth q (skipn n l) d = nth (n + q) l d.
Proof. revert l. induction n as [|n IH]; intros [|x l]; cbn; auto. destruct q; reflexivity. Qed.

Lemma before_tail sts k i : (forall q, (k < q)%nat -> nth q sts [] = []) -> (k < i)%nat -> before sts i = length (concat sts).
Proof.
  intros H Hi. unfold before. rewrite <- (firstn_skipn i sts) at 2. rewrite concat_app, app_length.
  rewrite (concat_empty (skipn i sts)); [cbn; lia|]. intros q. rewrite nth_skipn. apply H. lia.
Qed.

Lemma gen_fold_spec sts : exists k s, gen_fold sts = (concat sts, map (before sts) (seq 0 (S k)), s) /\
  (k = 0 \/ (k < length sts /\ nth k sts [] <> []))%nat /\ (forall q, (k < q)%nat -> nth q sts [] = []) /\
  (s = None /\ k = 0%nat /\ nth 0 sts [] = [] \/ s = Some k /\ nth k sts [] <> []).
Proof.
  induction sts as [|st sts IH] using rev_ind.
  - exists 0%nat, None. split; [reflexivity|]. split; [auto|]. split; [intros [|q] _; reflexivity|]. left. auto.
  - destruct IH as (k & s & E & K & T & S).
    assert (EF : gen_fold (sts ++ [st]) = fold_left gen_step (map (fun t => (length sts, t)) st) (gen_fold sts)).
    { unfold gen_fold. rewrite app_length. cbn [length]. rewrite Nat.add_1_r, seq_S, flat_map_app, fold_left_app. cbn [flat_map Nat.add].
      rewrite app_nil_r. f_equal; [f_equal; rewrite app_nth2, Nat.sub_diag by lia; reflexivity|].
      f_equal. rewrite !flat_map_concat_map. f_equal. apply map_ext_in. intros q Hq. apply in_seq in Hq. rewrite app_nth1 by lia. reflexivity. }
    rewrite EF, E. clear EF.
    assert (KL : (k <= length sts)%nat) by lia.
    assert (NA : forall q, (q < length sts)%nat -> nth q (sts ++ [st]) [] = nth q sts []) by (intros; apply app_nth1; assumption).
    assert (NL : nth (length sts) (sts ++ [st]) [] = st) by (rewrite app_nth2, Nat.sub_diag by lia; reflexivity).
    destruct st as [|t ts].
    + exists k, s. cbn [map fold_left].
      assert (NE : forall q, nth q (sts ++ [[]]) [] = nth q sts []).
      { intros q. destruct (Nat.lt_ge_cases q (length sts)) as [H|H]; [apply NA; exact H|]. rewrite (nth_overflow sts) by exact H.
        rewrite app_nth2 by exact H. destruct (q - length sts)%nat as [|[|]]; reflexivity. }
      split; [|split; [|split]].
      * rewrite concat_app. cbn [concat]. rewrite !app_nil_r. f_equal. f_equal. apply map_ext_in. intros i Hi. apply in_seq in Hi. symmetry. apply before_app. lia.
      * rewrite NE, app_length. cbn. destruct K as [K|[K1 K2]]; [auto|right; split; [lia|exact K2]].
      * intros q Hq. rewrite NE. auto.
      * rewrite !NE. exact S.
    + exists (length sts), (Some (length sts)). cbn [map fold_left gen_step].
      assert (CH : match s with Some s0 => negb (Nat.eqb s0 (length sts)) | None => true end = true).
      { destruct s as [s0|]; [|reflexivity]. destruct S as [[S _]|[S1 S2]]; [discriminate|]. inversion S1; subst s0.
        destruct (Nat.eqb_spec k (length sts)) as [->|]; [|reflexivity]. exfalso. apply S2. apply nth_overflow. lia. }
      rewrite CH, gen_same. split; [|split; [|split]].
      * rewrite pad_spec, map_length, seq_length. rewrite concat_app. cbn [concat]. rewrite app_nil_r, <- app_assoc. cbn [app]. f_equal. f_equal.
        replace (seq 0 (Datatypes.S (length sts))) with (seq 0 (Datatypes.S k) ++ seq (Datatypes.S k) (length sts - k)) by (rewrite <- seq_app; f_equal; lia).
        rewrite map_app. f_equal.
        -- apply map_ext_in. intros i Hi. apply in_seq in Hi. symmetry. apply before_app. lia.
        -- replace (Datatypes.S (length sts) - Datatypes.S k)%nat with (length sts - k)%nat by lia.
           assert (G : forall n a, (k < a)%nat -> (a + n <= Datatypes.S (length sts))%nat -> map (before (sts ++ [t :: ts])) (seq a n) = repeat (length (concat sts)) n).
           { induction n as [|n IHn]; intros a Ha Hn; [reflexivity|]. cbn [seq map repeat]. f_equal; [|apply IHn; lia].
             rewrite before_app by lia. apply (before_tail sts k); [exact T|exact Ha]. }
           symmetry. apply G; lia.
      * right. rewrite app_length. cbn [length]. split; [lia|]. rewrite NL. discriminate.
      * intros q Hq. apply nth_overflow. rewrite app_length. cbn. lia.
      * right. split; [reflexivity|]. rewrite NL. discriminate.
Qed.

Lemma before_S sts q : before sts (S q) = (before sts q + length (nth q sts []))%nat.
Proof.
  unfold before. revert q. induction sts as [|st sts IH]; intros q.
  - rewrite !firstn_nil. destruct q; reflexivity.
  - destruct q as [|q].
    + cbn. rewrite app_nil_r. reflexivity.
    + change (firstn (S (S q)) (st :: sts)) with (st :: firstn (S q) sts). change (firstn (S q) (st :: sts)) with (st :: firstn q sts).
      cbn [concat nth]. rewrite !app_length, IH. lia.
Qed.

Lemma row_slice (sts : list (list transition)) q : firstn (before sts (S q) - before sts q) (skipn (before sts q) (concat sts)) = nth q sts [].
Proof.
  rewrite before_S. replace (before sts q + length (nth q sts []) - before sts q)%nat with (length (nth q sts [])) by lia.
  revert q. induction sts as [|st sts IH]; intros q; [destruct q; unfold before; rewrite ?firstn_nil; cbn; reflexivity|].
  destruct q as [|q].
  - cbn. rewrite firstn_app, Nat.sub_diag, firstn_all. cbn. apply app_nil_r.
  - cbn [nth concat]. unfold before. cbn [firstn concat]. rewrite app_length, skipn_app.
    replace (length st + length (concat (firstn q sts)) - length st)%nat with (before sts q) by (unfold before; lia).
    rewrite skipn_all2 by lia. cbn [app]. apply IH.
Qed.

Section Gen.
  Context {A : Type}.
  Variable d : ndfa A.

  Lemma gen_tables_spec : exists k, gen_tables d = (concat (n_states d), map (before (n_states d)) (seq 0 (S k))) /\
    (k = 0 \/ (k < count_states d /\ get_state d k <> []))%nat /\ (forall q, (k < q)%nat -> get_state d q = []).
  Proof.
    destruct (gen_fold_spec (n_states d)) as (k & s & E & K & T & _). exists k. split; [|split; [exact K|exact T]].
    unfold gen_tables, gen_entries_offsets, lexer_transitions. fold (get_state d). change (length (n_states d)) with (count_states d) in *.
    unfold gen_fold in E. change (fun q : nat => map (fun t : transition => (q, t)) (nth q (n_states d) [])) with (fun q : nat => map (fun t : transition => (q, t)) (get_state d q)) in E.
    change (length (n_states d)) with (count_states d) in E. rewrite E. rewrite removelast_last. reflexivity.
  Qed.

  Hypothesis OK : ndfa_ok d.

  Theorem gen_lookup_lemma translate q c : disjoint_symbols d ->
    (exists q', (q < q')%nat /\ get_state d q' <> []) -> lookup_exact (n_symbols d) c (translate c) ->
    exists r, tables_run_unsafe (gen_tables d) translate (Z.of_nat q) c = Some r /\ moves d q c r.
  Proof.
    intros DJ (q' & Hq & NE) T. unfold tables_run_unsafe. destruct (exact_range d _ _ T) as [E|E].
    - rewrite E in *. exists (-1). split; [reflexivity|]. apply no_set_moves. exact T.
    - destruct (Z.eqb_spec (translate c) (-1)); [lia|]. destruct gen_tables_spec as (k & EG & K & TL). rewrite EG. unfold tables_get.
      assert (Hk : (q' <= k)%nat) by (destruct (Nat.le_gt_cases q' k) as [|H]; [assumption|destruct NE; apply TL; exact H]).
      replace (Z.of_nat q <? 0) with false by lia. rewrite Nat2Z.id. replace (Z.to_nat (Z.of_nat q + 1)) with (S q) by lia.
      rewrite !nth_error_map. rewrite (nth_error_nth' (seq 0 (S k)) 0%nat (n := q)) by (rewrite seq_length; lia).
      rewrite (nth_error_nth' (seq 0 (S k)) 0%nat (n := S q)) by (rewrite seq_length; lia). cbn [option_map]. rewrite !seq_nth by lia. cbn [Nat.add].
      destruct (Nat.eqb_spec (before (n_states d) (S q)) (before (n_states d) q)) as [EB|EB].
      + exists (-1). split; [reflexivity|]. rewrite before_S in EB. assert (length (get_state d q) = 0%nat) as EL by (unfold get_state; lia).
        right. split; [reflexivity|]. intros id r Hin. destruct (get_state d q); [destruct Hin|discriminate].
      + eexists. split; [reflexivity|]. rewrite row_slice. fold (get_state d q). eapply stored_moves; [exact DJ|exact T|lia|].
        apply compact_get_spec. eapply SS_weaken; [|exact (ok_sorted _ OK q)]. intros a b _ _ H. cbv beta in H. unfold trans_ltb in H. destruct (Z.ltb_spec (fst a) (fst b)); [lia|].
        destruct (Z.ltb_spec (fst b) (fst a)); [discriminate|lia].
  Qed.

  Theorem gen_outside_lemma translate q c : (forall q', (q < q')%nat -> get_state d q' = []) -> translate c <> -1 ->
    tables_run_unsafe (gen_tables d) translate (Z.of_nat q) c = None.
  Proof.
    intros HL HT. unfold tables_run_unsafe. destruct (Z.eqb_spec (translate c) (-1)); [contradiction|].
    destruct gen_tables_spec as (k & EG & K & TL). rewrite EG. unfold tables_get.
    assert (Hk : (k <= q)%nat). { destruct K as [->|[K1 K2]]; [lia|]. destruct (Nat.le_gt_cases k q) as [|H]; [assumption|destruct K2; apply HL; exact H]. }
    replace (Z.of_nat q <? 0) with false by lia. rewrite Nat2Z.id. replace (Z.to_nat (Z.of_nat q + 1)) with (S q) by lia.
    destruct (nth_error (map _ _) q); [|reflexivity].
    rewrite (proj2 (nth_error_None _ (S q))); [reflexivity|]. rewrite map_length, seq_length. lia.
  Qed.
End Gen.

(** * Running with the real translator *)
Lemma run_valid {row} (get : row -> Z -> option Z) rows translate q c : (q < length rows)%nat ->
  run get rows translate (Z.of_nat q) c = run_unsafe get rows translate (Z.of_nat q) c.
Proof. intros H. unfold run. replace (Z.of_nat q <? 0) with false by lia. replace (Z.of_nat (length rows) <=? Z.of_nat q) with false by lia. reflexivity. Qed.

Lemma run_invalid {row} (get : row -> Z -> option Z) rows translate q c : q < 0 \/ Z.of_nat (length rows) <= q ->
  run get rows translate q c = Some (-1).
Proof. intros H. unfold run. destruct (Z.ltb_spec q 0); [reflexivity|]. destruct (Z.leb_spec (Z.of_nat (length rows)) q); [reflexivity|lia]. Qed.

Section Real.
  Context {A : Type}.
  Variable d : ndfa A.
  Hypothesis OK : ndfa_ok d.
  Hypothesis DJ : disjoint_symbols d.
  Hypothesis DET : deterministic d.

  Theorem agree_lemma rowsF rowsC translate q c : flat_machine d rowsF -> compact_machine d rowsC -> lookup_exact (n_symbols d) c (translate c) ->
    run flat_get rowsF translate q c = run (fun row set => Some (compact_get row set)) rowsC translate q c.
  Proof.
    intros F C T. destruct (Z_lt_dec q 0); [rewrite !run_invalid; auto|]. destruct (Z_le_dec (Z.of_nat (count_states d)) q) as [L|L].
    - rewrite !run_invalid; auto; right; [rewrite (proj1 C)|rewrite (proj1 F)]; exact L.
    - replace q with (Z.of_nat (Z.to_nat q)) by lia. rewrite !run_valid by (rewrite ?(proj1 C), ?(proj1 F); lia).
      destruct (flat_machine_lemma d OK DJ rowsF translate (Z.to_nat q) c F ltac:(lia) T) as (r & -> & M).
      destruct (compact_machine_lemma d DJ rowsC translate (Z.to_nat q) c C ltac:(lia) T) as (r' & -> & M').
      f_equal. eapply moves_fun; eauto.
  Qed.

  Lemma real_exact k c : no_block_after_range (n_symbols d) -> fits k (n_symbols d) -> 0 <= c < kind_limit k ->
    lookup_exact (n_symbols d) c (set_for_symbol k (translator k (n_symbols d)) c).
  Proof.
    destruct (ok_symbols _ OK) as (reqs & NR & E). intros NB F Hc. assert (D : disjoint_map (n_symbols d)) by exact DJ.
    rewrite E in *. apply translator_lemma; assumption.
  Qed.
End Real.

Lemma det_of {A} (d : ndfa A) : ndfa_ok d -> disjoint_symbols d -> verify_is_dfa d = true -> deterministic d.
Proof.
  intros OK DJ VD. destruct (ok_inv _ OK) as [I _]. split.
  - intros x id t Hin E. apply (eps_id_spec _ I) in E; [|eapply ok_trans; eauto]. subst id.
    assert (X : (x < count_states d)%nat) by (destruct (Nat.lt_ge_cases x (count_states d)) as [|H]; [assumption|]; rewrite get_state_out in Hin by exact H; destruct Hin).
    apply (proj2 (proj1 (verify_is_dfa_spec d) VD (get_state d x) ltac:(apply nth_In; exact X))). apply (in_map fst) in Hin. exact Hin.
  - intros q x i r i' r' H1 H2 C1 C2. assert (i' = i) by (eapply DJ; eauto). subst i'.
    eapply nodup_fst_fun; [apply (state_nodup d VD q)| |]; eauto.
Qed.

(** * The property theorems *)
Section Final.
  Context {A : Type}.
  Variable d : ndfa A.

  Lemma C14_flat_lemma rows translate q c : ndfa_ok d -> disjoint_symbols d -> flat_machine d rows -> (q < count_states d)%nat ->
    lookup_exact (n_symbols d) c (translate c) ->
    exists r, run flat_get rows translate (Z.of_nat q) c = Some r /\ run_unsafe flat_get rows translate (Z.of_nat q) c = Some r /\ moves d q c r.
  Proof.
    intros OK DJ F Hq T. destruct (flat_machine_lemma d OK DJ rows translate q c F Hq T) as (r & E & M). exists r.
    rewrite run_valid by (rewrite (proj1 F); exact Hq). auto.
  Qed.

  Lemma C14_compact_lemma rows translate q c : ndfa_ok d -> disjoint_symbols d -> compact_machine d rows -> (q < count_states d)%nat ->
    lookup_exact (n_symbols d) c (translate c) ->
    exists r, run (fun row set => Some (compact_get row set)) rows translate (Z.of_nat q) c = Some r /\
      run_unsafe (fun row set => Some (compact_get row set)) rows translate (Z.of_nat q) c = Some r /\ moves d q c r.
  Proof.
    intros OK DJ F Hq T. destruct (compact_machine_lemma d DJ rows translate q c F Hq T) as (r & E & M). exists r.
    rewrite run_valid by (rewrite (proj1 F); exact Hq). auto.
  Qed.

  Lemma C14_invalid_lemma rowsF rowsC translate q c : flat_machine d rowsF -> compact_machine d rowsC -> q < 0 \/ Z.of_nat (count_states d) <= q ->
    run flat_get rowsF translate q c = Some (-1) /\ run (fun row set => Some (compact_get row set)) rowsC translate q c = Some (-1).
  Proof. intros F C H. split; apply run_invalid; [rewrite (proj1 F)|rewrite (proj1 C)]; exact H. Qed.

  Lemma C14_words_lemma rowsF rowsC k q w a :
    ndfa_ok d -> disjoint_symbols d -> deterministic d -> flat_machine d rowsF -> compact_machine d rowsC ->
    no_block_after_range (n_symbols d) -> fits k (n_symbols d) -> (forall c, In c w -> 0 <= c < kind_limit k) ->
    (q < count_states d)%nat ->
    let translate := set_for_symbol k (translator k (n_symbols d)) in
    (accepts d q w a <-> exists r, run_word (run flat_get rowsF translate) (Z.of_nat q) w = Some (Z.of_nat r) /\ In a (actions_for_state d r)) /\
    (accepts d q w a <-> exists r, run_word (run (fun row set => Some (compact_get row set)) rowsC translate) (Z.of_nat q) w = Some (Z.of_nat r) /\ In a (actions_for_state d r)).
  Proof.
    intros OK DJ DET F C NB FI W Hq translate.
    assert (T : forall c, In c w -> lookup_exact (n_symbols d) c (translate c)) by (intros c Hc; apply real_exact; auto).
    split; (apply run_word_accepts; [exact OK|exact DET|exact Hq|]; intros q0 c Hq0 Hc; specialize (T c Hc)).
    - destruct (C14_flat_lemma rowsF translate q0 c OK DJ F Hq0 T) as (r & H & _ & M). eauto.
    - destruct (C14_compact_lemma rowsC translate q0 c OK DJ C Hq0 T) as (r & H & _ & M). eauto.
  Qed.
End Final.

Lemma C14_refuted_lemma : exists (d : ndfa Z) rows,
  ndfa_ok d /\ disjoint_symbols d /\ deterministic d /\ compact_machine d rows /\ accepts d 0 [300] 1 /\
  run (fun row set => Some (compact_get row set)) rows (set_for_symbol Kwchar (translator Kwchar (n_symbols d))) 0 300 = Some (-1).
Proof.
  set (ops := [OpState; OpTrans 0 [mkR 0 256] 0; OpTrans 0 [mkR 256 512] 1; OpAccept 1 1] : list (@op Z)).
  assert (V : Forall op_valid ops) by (repeat (apply Forall_cons; [try exact I; apply normal_b_sound; vm_compute; reflexivity|]); apply Forall_nil).
  exists (build ops), (n_states (build ops)). pose proof (build_ok_lemma ops V) as OK. split; [exact OK|].
  assert (DJ : disjoint_symbols (build ops)) by (apply verify_no_overlap_spec; [exact OK|vm_compute; reflexivity]).
  split; [exact DJ|]. split; [apply det_of; auto|]. split; [apply compact_machine_exists; exact OK|]. split.
  - exists 1%nat. split; [|vm_compute; auto]. apply (path_sym _ 0 1 1); [vm_compute; auto|vm_compute; reflexivity|constructor].
  - vm_compute. reflexivity.
Qed.
