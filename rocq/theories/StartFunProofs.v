(** The functions for start symbols, and the states they start in. *)
From Coq Require Import String.
From Verif Require Import Base OrdMap GrammarModel LrItemModel LrItemProofs ClosureModel ClosureProofs MachineModel MachineProofs BuilderModel BuilderProofs StageModel NamesModel NamesSpec NamesProofs StartFunModel StartFunSpec.
Local Open Scope Z_scope.

(** ** The names *)
Definition creator_name (start : str) : str := codes "create_" ++ get_identifier start.

Lemma creator_name_inj a b : creator_name a = creator_name b <-> get_identifier a = get_identifier b.
Proof. unfold creator_name. split; [apply app_inv_head|intros ->; reflexivity]. Qed.

Lemma in_creators f starts : forall n, In f (start_creators n starts) <-> exists k s, nth_error starts k = Some s /\ In f (creators_for s (n + Z.of_nat k)).
Proof.
  induction starts as [|s starts IH]; intros n; cbn [start_creators].
  - split; [intros []|]. intros ([|k] & s & E & _); discriminate E.
  - rewrite in_app_iff, IH. split.
    + intros [I|(k & s' & E & I)]; [exists 0%nat, s; split; [reflexivity|]; replace (n + Z.of_nat 0) with n by lia; exact I|]. exists (S k), s'. split; [exact E|]. replace (n + Z.of_nat (S k)) with (n + 1 + Z.of_nat k) by lia. exact I.
    + intros ([|k] & s' & E & I).
      * injection E as <-. left. replace (n + Z.of_nat 0) with n in I by lia. exact I.
      * right. exists k, s'. split; [exact E|]. replace (n + 1 + Z.of_nat k) with (n + Z.of_nat (S k)) by lia. exact I.
Qed.

Lemma for_name s n f : In f (creators_for s n) -> cr_name f = creator_name s.
Proof. cbn. intuition (subst; reflexivity). Qed.

Lemma creators_starts_in starts : NoDup (map get_identifier starts) -> forall k s, nth_error starts k = Some s -> forall p state, starts_in (header_start_symbols starts) (creator_name s) p state <-> state = Z.of_nat k.
Proof.
  intros ND k s E p state.
  assert (U : forall k' s', nth_error starts k' = Some s' -> creator_name s' = creator_name s -> k' = k).
  { intros k' s' E' N. apply creator_name_inj in N. apply (proj1 (NoDup_nth_error (map get_identifier starts)) ND); [apply nth_error_Some; rewrite nth_error_map, E'; discriminate|]. rewrite !nth_error_map, E, E'. cbn. congruence. }
  split.
  - intros H. remember (creator_name s) as name eqn:EN. revert EN. induction H as [name p state I|name p name' p' state I H IH]; intros ->; apply in_creators in I as (k' & s' & E' & I); rewrite Z.add_0_l in I; pose proof (for_name _ _ _ I) as N; cbn [cr_name] in N; assert (k' = k) by (apply (U k' s' E'); congruence); subst k'; rewrite E in E'; injection E' as <-.
    + cbn in I. destruct I as [I|[I|[I|[I|[]]]]]; injection I; intros; subst; try discriminate; auto.
    + cbn in I. destruct I as [I|[I|[I|[I|[]]]]]; try discriminate; injection I; intros; subst; auto.
  - intros ->. assert (B : forall f, In f (creators_for s (Z.of_nat k)) -> In f (header_start_symbols starts)).
    { intros f I. apply in_creators. exists k, s. split; [exact E|]. rewrite Z.add_0_l. exact I. }
    assert (L : starts_in (header_start_symbols starts) (creator_name s) TakesLexemes (Z.of_nat k)) by (apply starts_here, B; cbn; auto).
    destruct p; [apply starts_here, B; cbn; auto|exact L|eapply starts_there; [apply B; cbn; eauto|exact L]|eapply starts_there; [apply B; cbn; eauto|exact L]].
Qed.

Lemma nodup_append {A} (l l' : list A) : NoDup (l ++ l') <-> NoDup l /\ NoDup l' /\ forall x, In x l -> ~ In x l'.
Proof.
  induction l as [|a l IH]; cbn [app].
  - split; [intros H; split; [constructor|]; split; [exact H|intros x []]|intros (_ & H & _); exact H].
  - rewrite !NoDup_cons_iff, IH, in_app_iff. split.
    + intros (N & A1 & A2 & A3). split; [split; [tauto|exact A1]|]. split; [exact A2|]. intros x [<-|I]; [tauto|auto].
    + intros ((N & A1) & A2 & A3). split; [intros [X|X]; [tauto|exact (A3 a (or_introl eq_refl) X)]|]. split; [exact A1|]. split; [exact A2|]. intros x I. apply A3. right. exact I.
Qed.
Lemma one_definition_lemma starts : one_definition (header_start_symbols starts) <-> NoDup (map get_identifier starts).
Proof.
  unfold one_definition, header_start_symbols. generalize 0. induction starts as [|s starts IH]; intros n; [split; constructor|]. cbn [start_creators map]. rewrite map_app, nodup_append, IH, NoDup_cons_iff.
  assert (O : NoDup (map (fun f => (cr_name f, cr_parameters f)) (creators_for s n))).
  { cbn. repeat (constructor; [cbn; intros X; repeat (destruct X as [X|X]; [discriminate X|]); exact X|]). constructor. }
  assert (X : (forall x, In x (map (fun f => (cr_name f, cr_parameters f)) (creators_for s n)) -> ~ In x (map (fun f => (cr_name f, cr_parameters f)) (start_creators (n + 1) starts))) <-> ~ In (get_identifier s) (map get_identifier starts)).
  { split.
    - intros H I. apply in_map_iff in I as (s' & E & I). apply In_nth_error in I as (k & I). apply (H (creator_name s, TakesActions)); [cbn; auto|]. apply in_map_iff. exists (mkCreator (creator_name s') TakesActions (CreateParser (n + 1 + Z.of_nat k))). split; [cbn [cr_name cr_parameters]; f_equal; apply creator_name_inj, E|].
      apply in_creators. exists k, s'. split; [exact I|]. cbn. auto.
    - intros N x I I'. apply in_map_iff in I as (f & <- & I). apply in_map_iff in I' as (f' & E & I'). apply in_creators in I' as (k & s' & E' & I'). apply for_name in I. apply for_name in I'. injection E as E _. apply N. apply in_map_iff. exists s'. split; [apply creator_name_inj; congruence|]. eapply nth_error_In, E'. }
  rewrite X. tauto.
Qed.

Lemma nth_error_same {A} (l : list A) : forall l', (forall n, nth_error l n = nth_error l' n) -> l = l'.
Proof.
  induction l as [|a l IH]; intros [|b l'] E; [reflexivity|discriminate (E 0%nat)|discriminate (E 0%nat)|]. f_equal; [injection (E 0%nat); auto|]. apply IH. intros n. exact (E (S n)).
Qed.

(** ** The states *)
Section States.
  Context (rid : rule -> Z) (RI : injective rid).

  (** The machine after some start symbols: a state for each different one, in their order *)
  Definition started (past : list item) (m : machine) : Prop := machine_ok rid m /\ map st_list (m_states m) = map (fun l => [language_item l]) past.

  Lemma started_step past m l m' n : started past m -> add_initial_state rid l m = (m', n) ->
    (In l past /\ started past m' /\ exists k, n = Z.of_nat k /\ nth_error past k = Some l) \/ (~ In l past /\ started (past ++ [l]) m' /\ n = Z.of_nat (length past)).
  Proof.
    intros (OK & E) H. unfold add_initial_state in H. destruct (single_state_facts rid RI (language_item l) IEoi) as (SL & _ & SI & SO). destruct (add_state rid (single_state rid (language_item l) IEoi) m) as [[m1 s1] n1] eqn:A. injection H as <- <-.
    assert (MEM : In [language_item l] (map st_list (m_states m)) <-> In l past).
    { rewrite E, in_map_iff. split; [intros (l' & X & I); injection X as ->; exact I|]. intros I. exists l. auto. }
    assert (LEN : length (m_states m) = length past) by (rewrite <- (map_length st_list), E, map_length; reflexivity).
    pose proof A as A0. unfold add_state in A0. rewrite SI in A0. cbn [Z.leb Z.compare] in A0. rewrite SL in A0.
    destruct (add_state_ok rid RI _ _ _ _ _ OK SO ltac:(rewrite SI; lia) ltac:(rewrite SI; lia) A) as (OK' & _).
    destruct (mfind (kernel_ltb rid) [language_item l] (m_ids m)) as [k|] eqn:F.
    - injection A0 as <- <- <-. apply (id_of_kernel rid RI _ _ _ OK) in F as (N0 & s & NS & LS). left.
      assert (P : nth_error past (Z.to_nat k) = Some l).
      { assert (X : nth_error (map st_list (m_states m)) (Z.to_nat k) = Some [language_item l]) by (rewrite nth_error_map, NS; cbn; congruence). rewrite E, nth_error_map in X. destruct (nth_error past (Z.to_nat k)) as [l'|]; [|discriminate X]. cbn in X. injection X as ->. reflexivity. }
      split; [eapply nth_error_In, P|]. split; [split; assumption|]. exists (Z.to_nat k). split; [lia|exact P].
    - injection A0 as <- <- <-. right. split.
      + intros I. apply MEM in I. apply in_map_iff in I as (s & LS & I). exact (proj1 (no_kernel rid RI _ _ OK) F s I LS).
      + split; [|rewrite LEN; reflexivity]. split; [exact OK'|]. cbn [m_states]. rewrite !map_app, E. cbn [map]. reflexivity.
  Qed.

  Lemma initial_numbers languages : forall past m, started past m -> NoDup past ->
    (NoDup (past ++ languages) -> initial_states rid languages m = map Z.of_nat (seq (length past) (length languages))) /\
    (initial_states rid languages m = map Z.of_nat (seq (length past) (length languages)) -> NoDup (past ++ languages)).
  Proof.
    induction languages as [|l languages IH]; intros past m ST ND; [rewrite app_nil_r; split; [reflexivity|intros _; exact ND]|]. cbn [initial_states]. destruct (add_initial_state rid l m) as [m' n] eqn:A. cbn [length seq map].
    replace (past ++ l :: languages) with ((past ++ [l]) ++ languages) by (rewrite <- app_assoc; reflexivity).
    destruct (started_step _ _ _ _ _ ST A) as [(I & ST' & k & -> & NK)|(N & ST' & ->)].
    - split.
      + intros H. exfalso. apply nodup_append in H as (H & _). apply nodup_append in H as (_ & _ & H). exact (H l I (or_introl eq_refl)).
      + intros H. injection H as H _. exfalso. apply Nat2Z.inj in H. assert (X : (k < length past)%nat) by (apply nth_error_Some; congruence). lia.
    - assert (ND' : NoDup (past ++ [l])) by (apply nodup_append; split; [exact ND|]; split; [constructor; [intros []|constructor]|]; intros x X [<-|[]]; exact (N X)).
      destruct (IH _ _ ST' ND') as (D1 & D2). rewrite app_length in D1, D2. cbn [length] in D1, D2. rewrite Nat.add_1_r in D1, D2. split; [intros H; rewrite (D1 H); reflexivity|]. intros H. injection H as H. apply D2, H.
  Qed.

  Lemma initial_states_lemma languages : NoDup languages <-> initial_states rid languages new_machine = map Z.of_nat (seq 0 (length languages)).
  Proof. destruct (initial_numbers languages [] new_machine (conj (new_machine_ok rid) eq_refl) (NoDup_nil _)) as (A & B). split; assumption. Qed.
End States.

(** ** Classes *)
Lemma variant_prefix base n : exists rest, variant_of base n = base ++ rest.
Proof. unfold variant_of. destruct (Nat.ltb 1 n); [eexists; reflexivity|exists []; rewrite app_nil_r; reflexivity]. Qed.
Lemma free_variant_prefix fuel taken base : forall n s, free_variant fuel taken base n = Some s -> exists rest, s = base ++ rest.
Proof.
  induction fuel as [|fuel IH]; intros n s; cbn [free_variant]; destruct (taken (variant_of base n)); try discriminate; try (intros E; injection E as <-; apply variant_prefix). apply IH.
Qed.
