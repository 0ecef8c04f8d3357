(** Proofs about DFA compaction. *)
From Verif Require Import Base OrdMap SymbolSetModel SymbolSetSpec SymbolSetProofs.
From Verif Require Import SymbolMapModel SymbolMapSpec SymbolMapProofs DedupProofs NdfaModel NdfaSpec NdfaProofs ToDfaProofs.
From Verif Require Import NdfaReduceModel NdfaReduceSpec.
Local Open Scope Z_scope.

Notation nfind := (mfind Nat.ltb).

Lemma nset_same {V} (m : list (nat * V)) q c : msorted Nat.ltb m -> nfind q (mset Nat.ltb q c m) = Some c.
Proof. intros H. apply mfind_mset_same; [apply natltb_strict|exact H]. Qed.
Lemma nset_other {V} (m : list (nat * V)) q c q' : msorted Nat.ltb m -> q' <> q -> nfind q' (mset Nat.ltb q c m) = nfind q' m.
Proof. intros H Hn. apply mfind_mset_other; [apply natltb_strict|exact H|exact Hn]. Qed.
Lemma nset_sorted {V} (m : list (nat * V)) q c : msorted Nat.ltb m -> msorted Nat.ltb (mset Nat.ltb q c m).
Proof. intros H. apply mset_sorted; [apply natltb_strict|exact H]. Qed.

Lemma sins_fold_in l : forall s q, In q (fold_left (fun s q => sins Nat.ltb q s) l s) <-> In q l \/ In q s.
Proof.
  induction l as [|a l IH]; intros s q; cbn [fold_left]; [cbn; tauto|].
  rewrite IH, (sins_in _ natltb_strict). cbn [In]. intuition congruence.
Qed.
Lemma sins_fold_sorted l : forall s, ssorted Nat.ltb s -> ssorted Nat.ltb (fold_left (fun s q => sins Nat.ltb q s) l s).
Proof.
  induction l as [|a l IH]; intros s H; cbn [fold_left]; [exact H|]. apply IH. apply sins_sorted; [apply natltb_strict|exact H].
Qed.
Lemma serase_fold_sorted l : forall s, ssorted Nat.ltb s -> ssorted Nat.ltb (fold_left (fun s q => serase Nat.ltb q s) l s).
Proof.
  induction l as [|a l IH]; intros s H; cbn [fold_left]; [exact H|]. apply IH. apply serase_sorted; [apply natltb_strict|exact H].
Qed.
Lemma serase_fold_in l : forall s q, ssorted Nat.ltb s -> In q (fold_left (fun s q => serase Nat.ltb q s) l s) <-> In q s /\ ~ In q l.
Proof.
  induction l as [|a l IH]; intros s q H; cbn [fold_left]; [cbn; tauto|].
  rewrite IH by (apply serase_sorted; [apply natltb_strict|exact H]).
  rewrite (serase_in _ natltb_strict) by exact H. cbn [In]. intuition congruence.
Qed.

Lemma last_nth {X} (l : list X) x : last l x = nth (length l - 1) l x.
Proof.
  induction l as [|a [|b l] IH]; [reflexivity|reflexivity|]. change (last (b :: l) x = nth (length (a :: b :: l) - 1) (a :: b :: l) x). rewrite IH. cbn [length].
  replace (S (S (length l)) - 1)%nat with (S (S (length l) - 1))%nat by lia. reflexivity.
Qed.

Lemma hd_in {X} (l : list X) : l <> [] -> exists a t, l = a :: t.
Proof. destruct l as [|a t]; [congruence|]. eauto. Qed.

Section Compact.
  Context {A : Type}.
  Variables (d : ndfa A) (init : list nat).
  Let N := count_states d.
  Let n := length init.

  Hypothesis IN : NoDup init.
  Hypothesis IB : forall q, In q init -> (q < N)%nat.

  Lemma is_accepting_spec q : (q < N)%nat -> is_accepting d q = true <-> accepting d q.
  Proof.
    intros H. unfold is_accepting, accepting, actions_for_state. fold N.
    replace (Nat.leb N q) with false by (symmetry; apply Nat.leb_gt; exact H).
    destruct (nfind q (n_accept d)) as [[|a l]|]; split; congruence.
  Qed.

  Record pinv (D : nat -> Prop) (ns : list (list nat)) (m : oldmap) : Prop := {
    p_sorted : msorted Nat.ltb m;
    p_class : forall c q, In q (nth c ns []) <-> nfind q m = Some c;
    p_cs : forall c, ssorted Nat.ltb (nth c ns []);
    p_dom : forall q, (exists c, nfind q m = Some c) <-> D q }.

  Lemma pinv_insert D ns m q c : pinv D ns m -> ~ D q -> (c < length ns)%nat ->
    pinv (fun x => D x \/ x = q) (set_nth c (sins Nat.ltb q (nth c ns [])) ns) (mset Nat.ltb q c m).
  Proof.
    intros [P1 P2 P3 P4] Hq Hc.
    assert (Fq : nfind q m = None) by (destruct (nfind q m) eqn:E; [exfalso; apply Hq; apply P4; eauto|reflexivity]).
    constructor.
    - apply nset_sorted. exact P1.
    - intros c' q'. destruct (Nat.eq_dec q' q) as [->|Hn].
      + rewrite nset_same by exact P1. destruct (Nat.eq_dec c' c) as [->|Hc'].
        * rewrite set_nth_same by exact Hc. rewrite (sins_in _ natltb_strict). tauto.
        * rewrite set_nth_other by exact Hc'. rewrite P2, Fq. split; [discriminate|congruence].
      + rewrite nset_other by assumption. rewrite <- P2. destruct (Nat.eq_dec c' c) as [->|Hc'].
        * rewrite set_nth_same by exact Hc. rewrite (sins_in _ natltb_strict). intuition congruence.
        * rewrite set_nth_other by exact Hc'. reflexivity.
    - intros c'. destruct (Nat.eq_dec c' c) as [->|Hc'].
      + rewrite set_nth_same by exact Hc. apply sins_sorted; [apply natltb_strict|apply P3].
      + rewrite set_nth_other by exact Hc'. apply P3.
    - intros x. destruct (Nat.eq_dec x q) as [->|Hn].
      + rewrite nset_same by exact P1. split; [auto|eauto].
      + rewrite nset_other by assumption. rewrite P4. intuition congruence.
  Qed.

  Lemma pinv_app D ns m : pinv D ns m -> pinv D (ns ++ [[]]) m.
  Proof. intros [P1 P2 P3 P4]. constructor; auto; intros c; rewrite nth_app_nil; auto. Qed.

  Lemma pinv_ext D D' ns m : (forall q, D q <-> D' q) -> pinv D ns m -> pinv D' ns m.
  Proof. intros H [P1 P2 P3 P4]. constructor; auto. intros q. rewrite P4. apply H. Qed.

  Lemma pinv_len D ns m q c : pinv D ns m -> nfind q m = Some c -> (c < length ns)%nat.
  Proof.
    intros P H. apply (p_class _ _ _ P) in H. destruct (Nat.lt_ge_cases c (length ns)) as [|Hc]; [assumption|].
    rewrite nth_overflow in H by exact Hc. destruct H.
  Qed.

  (** * The first partition *)

  Lemma compact_initial_spec : forall l k m, NoDup l -> msorted Nat.ltb m -> (forall q, In q l -> nfind q m = None) ->
    let m' := compact_initial k l m in
    msorted Nat.ltb m' /\
    (forall q c, nfind q m' = Some c <-> nfind q m = Some c \/ exists i, nth_error l i = Some q /\ c = (k + i)%nat).
  Proof.
    induction l as [|a l IH]; intros k m ND Hs Hn; cbn [compact_initial].
    - split; [exact Hs|]. intros q c. split; [auto|]. intros [H|(i & H & _)]; [exact H|]. destruct i; discriminate.
    - inv ND. assert (Fa : nfind a m = None) by (apply Hn; cbn; auto).
      destruct (IH (S k) (mset Nat.ltb a k m)) as [I1 I2]; [assumption|apply nset_sorted; exact Hs| |].
      { intros q Hq. rewrite nset_other; [apply Hn; cbn; auto|exact Hs|intros ->; contradiction]. }
      split; [exact I1|]. intros q c. rewrite I2. destruct (Nat.eq_dec q a) as [->|Hqa].
      + rewrite nset_same by exact Hs. rewrite Fa. split.
        * intros [E|(i & Hi & _)]; [inv E; right; exists O; split; [reflexivity|lia]|]. exfalso. apply H1. eapply nth_error_In; eauto.
        * intros [E|([|i] & Hi & ->)]; [discriminate|left; f_equal; lia|]. exfalso. apply H1. cbn in Hi. eapply nth_error_In; eauto.
      + rewrite nset_other by assumption. split.
        * intros [E|(i & Hi & ->)]; [auto|]. right. exists (S i). split; [exact Hi|lia].
        * intros [E|([|i] & Hi & ->)]; [auto|cbn in Hi; congruence|]. right. exists i. split; [exact Hi|lia].
  Qed.

  (** what holds after placing the states below [j] *)
  Record place (j : nat) (ns : list (list nat)) (m : oldmap) : Prop := {
    pl_p : pinv (fun q => In q init \/ (q < j)%nat) ns m;
    pl_init : forall k q, (k < n)%nat -> (nth_error init k = Some q <-> nfind q m = Some k);
    pl_case :
      (length ns = S n /\ (forall q, nfind q m = Some n -> lumped d init N q) /\ (forall q, (q < j)%nat -> ~ In q init -> ~ accepting d q))
      \/
      (exists f, first_accepting d init f /\ (f < j)%nat /\ (n + 2 <= length ns)%nat /\
         nth (length ns - 1) ns [] = [] /\
         (forall c, (n <= c < length ns - 1)%nat -> nth c ns [] <> []) /\
         (forall q, nfind q m = Some n -> lumped d init f q) /\
         (forall q q' c, (n < c)%nat -> nfind q m = Some c -> nfind q' m = Some c -> q = q')) }.

  Lemma init_class k : nth k (map (fun q => [q]) init ++ [[]]) [] = match nth_error init k with Some q => [q] | None => [] end.
  Proof.
    rewrite nth_app_nil. clear. revert k. induction init as [|a l IH]; intros [|k]; cbn; auto.
  Qed.

  Lemma place_start : place 0 (map (fun q => [q]) init ++ [[]]) (compact_initial 0 init []).
  Proof.
    destruct (compact_initial_spec init 0 [] IN ltac:(constructor) ltac:(reflexivity)) as [S1 S2].
    assert (S3 : forall q c, nfind q (compact_initial 0 init []) = Some c <-> nth_error init c = Some q).
    { intros q c. rewrite S2. cbn [mfind]. split; [intros [H|(i & Hi & ->)]; [discriminate|exact Hi]|]. intros H. right. exists c. auto. }
    constructor.
    - constructor; [exact S1| | |].
      + intros c q. rewrite init_class, S3. destruct (nth_error init c) as [q'|]; cbn; [|split; [intros []|discriminate]].
        split; [intros [->|[]]; reflexivity|]. intros E. inv E. auto.
      + intros c. rewrite init_class. destruct (nth_error init c); [|constructor].
        apply ssorted_cons. split; [constructor|intros ? []].
      + intros q. split.
        * intros (c & H). apply S3 in H. left. eapply nth_error_In; eauto.
        * intros [H|H]; [|lia]. apply In_nth_error in H as [c H]. exists c. apply S3. exact H.
    - intros k q _. symmetry. apply S3.
    - left. split; [rewrite app_length, map_length; cbn; lia|]. split; [|intros; lia].
      intros q H. apply S3 in H. assert (n < length init)%nat; [|unfold n in *; lia]. apply nth_error_Some. congruence.
  Qed.

  Lemma place_step j ns m : (j < N)%nat -> place j ns m ->
    let '(ns', m') := compact_place d n (ns, m) j in place (S j) ns' m'.
  Proof.
    intros Hj [P PI PC]. unfold compact_place.
    assert (PD : forall q, (In q init \/ (q < j)%nat) \/ q = j <-> In q init \/ (q < S j)%nat).
    { intros q. split; [intros [[H|H]|H]; [auto|right; lia|right; lia]|]. intros [H|H]; [auto|].
      destruct (Nat.eq_dec q j); [auto|left; right; lia]. }
    destruct (nfind j m) as [c|] eqn:Fj.
    - assert (Hin : In j init).
      { destruct (proj1 (p_dom _ _ _ P j)) as [H|H]; [eauto|exact H|lia]. }
      constructor; [|exact PI|].
      + eapply pinv_ext; [|exact P]. intros q. rewrite <- PD. split; [auto|]. intros [H|H]; [exact H|]. subst q. auto.
      + destruct PC as [(L & HL & HA)|(f & F1 & F2 & PC)].
        * left. split; [exact L|]. split; [exact HL|]. intros q Hq Hn. destruct (Nat.eq_dec q j) as [->|]; [contradiction|]. apply HA; [lia|exact Hn].
        * right. exists f. split; [exact F1|]. split; [lia|exact PC].
    - assert (Hin : ~ In j init /\ ~ (In j init \/ (j < j)%nat)).
      { split; [intros H|intros [H|H]; [|lia]]; (destruct (proj2 (p_dom _ _ _ P j)) as [c Hc]; [auto|congruence]). }
      destruct Hin as [Hin HD]. pose proof (p_sorted _ _ _ P) as Hs.
      assert (Ln : (S n <= length ns)%nat) by (destruct PC as [(L & _)|(f & _ & _ & L & _)]; lia).
      destruct (is_accepting d j) eqn:EA.
      + apply (is_accepting_spec j Hj) in EA.
        set (target := (length ns - 1)%nat).
        assert (PI' : forall k q, (k < n)%nat -> (nth_error init k = Some q <-> nfind q (mset Nat.ltb j target m) = Some k)).
        { intros k q Hk. destruct (Nat.eq_dec q j) as [->|Hq].
          - rewrite nset_same by exact Hs. split; [intros H; apply nth_error_In in H; contradiction|]. intros E. inv E. lia.
          - rewrite nset_other by assumption. apply PI. exact Hk. }
        constructor; [|exact PI'|].
        * eapply pinv_ext; [exact PD|]. apply pinv_insert; [apply pinv_app; exact P|exact HD|]. rewrite app_length. cbn; lia.
        * right. rewrite set_nth_length, app_length. cbn [length].
          destruct PC as [(L & HL & HA)|(f & F1 & F2 & L & Hsp & Hne & Hl & Hu)].
          -- assert (target = n) as -> by (unfold target; lia). exists j.
             assert (FA : first_accepting d init j) by (split; [exact Hj|]; split; [exact Hin|]; split; [exact EA|]; intros; apply HA; assumption).
             split; [exact FA|]. split; [lia|]. split; [lia|]. split; [|split; [|split]].
             ++ rewrite set_nth_other by lia. rewrite nth_app_nil. apply nth_overflow. lia.
             ++ intros c Hc. assert (c = n) by lia. subst c. rewrite set_nth_same by (rewrite app_length; cbn; lia).
                intros E. assert (X : In j (sins Nat.ltb j (nth n (ns ++ [[]]) []))) by (apply sins_in; [apply natltb_strict|auto]).
                rewrite E in X. destruct X.
             ++ intros q. destruct (Nat.eq_dec q j) as [->|Hq].
                ** intros _. split; [exact Hj|]. split; [exact Hin|auto].
                ** rewrite nset_other by assumption. intros H. destruct (HL q H) as (H1 & H2 & [H3|H3]); [|lia]. split; [exact H1|]. split; auto.
             ++ intros q q' c Hc H1 H2. destruct (Nat.eq_dec q j) as [->|Hq]; [rewrite nset_same in H1 by exact Hs; inv H1; lia|].
                rewrite nset_other in H1 by assumption. apply (pinv_len _ _ _ _ _ P) in H1. lia.
          -- exists f. split; [exact F1|]. split; [lia|]. split; [lia|].
             assert (Ht : (n < target)%nat) by (unfold target; lia).
             assert (Hnt : forall q, nfind q m <> Some target).
             { intros q H. apply (p_class _ _ _ P) in H. unfold target in H. rewrite Hsp in H. destruct H. }
             split; [|split; [|split]].
             ++ rewrite set_nth_other by (unfold target; lia). rewrite nth_app_nil. apply nth_overflow. lia.
             ++ intros c Hc. destruct (Nat.eq_dec c target) as [->|Hct].
                ** rewrite set_nth_same by (rewrite app_length; cbn; unfold target; lia).
                   intros E. assert (X : In j (sins Nat.ltb j (nth target (ns ++ [[]]) []))) by (apply sins_in; [apply natltb_strict|auto]).
                   rewrite E in X. destruct X.
                ** rewrite set_nth_other by exact Hct. rewrite nth_app_nil. apply Hne. unfold target in *. lia.
             ++ intros q. destruct (Nat.eq_dec q j) as [->|Hq].
                ** rewrite nset_same by exact Hs. intros E. inv E. lia.
                ** rewrite nset_other by assumption. apply Hl.
             ++ intros q q' c Hc. destruct (Nat.eq_dec q j) as [->|Hq], (Nat.eq_dec q' j) as [->|Hq']; auto.
                ** rewrite nset_same, nset_other by assumption. intros E H. inv E. destruct (Hnt _ H).
                ** rewrite nset_same, nset_other by assumption. intros H E. inv E. destruct (Hnt _ H).
                ** rewrite !nset_other by assumption. apply Hu. exact Hc.
      + assert (NA : ~ accepting d j) by (intros H; apply (is_accepting_spec j Hj) in H; congruence).
        assert (PI' : forall k q, (k < n)%nat -> (nth_error init k = Some q <-> nfind q (mset Nat.ltb j n m) = Some k)).
        { intros k q Hk. destruct (Nat.eq_dec q j) as [->|Hq].
          - rewrite nset_same by exact Hs. split; [intros H; apply nth_error_In in H; contradiction|]. intros E. inv E. lia.
          - rewrite nset_other by assumption. apply PI. exact Hk. }
        constructor; [|exact PI'|].
        * eapply pinv_ext; [exact PD|]. apply pinv_insert; [exact P|exact HD|lia].
        * rewrite set_nth_length. destruct PC as [(L & HL & HA)|(f & F1 & F2 & L & Hsp & Hne & Hl & Hu)].
          -- left. split; [exact L|]. split.
             ++ intros q. destruct (Nat.eq_dec q j) as [->|Hq]; [intros _; split; [exact Hj|]; split; [exact Hin|auto]|].
                rewrite nset_other by assumption. apply HL.
             ++ intros q Hq Hn. destruct (Nat.eq_dec q j) as [->|]; [exact NA|]. apply HA; [lia|exact Hn].
          -- right. exists f. split; [exact F1|]. split; [lia|]. split; [lia|]. split; [|split; [|split]].
             ++ rewrite set_nth_other by lia. exact Hsp.
             ++ intros c Hc. destruct (Nat.eq_dec c n) as [->|Hcn].
                ** rewrite set_nth_same by lia. intros E.
                   assert (X : In j (sins Nat.ltb j (nth n ns []))) by (apply sins_in; [apply natltb_strict|auto]).
                   rewrite E in X. destruct X.
                ** rewrite set_nth_other by exact Hcn. apply Hne. exact Hc.
             ++ intros q. destruct (Nat.eq_dec q j) as [->|Hq]; [intros _; split; [exact Hj|]; split; [exact Hin|auto]|].
                rewrite nset_other by assumption. apply Hl.
             ++ intros q q' c Hc. destruct (Nat.eq_dec q j) as [->|Hq].
                ** rewrite nset_same by exact Hs. intros E. inv E. lia.
                ** destruct (Nat.eq_dec q' j) as [->|Hq']; [rewrite nset_same by exact Hs; intros _ E; inv E; lia|].
                   rewrite !nset_other by assumption. apply Hu. exact Hc.
  Qed.

  (** * The partition while it is refined *)

  Variable f : nat.
  Hypothesis FA : first_accepting d init f.

  Record fin (ns : list (list nat)) (m : oldmap) : Prop := {
    f_p : pinv (fun q => (q < N)%nat) ns m;
    f_len : (n + 2 <= length ns)%nat;
    f_spare : nth (length ns - 1) ns [] = [];
    f_ne : forall c, (c < length ns - 1)%nat -> nth c ns [] <> [];
    f_init : forall k q, (k < n)%nat -> (nth_error init k = Some q <-> nfind q m = Some k);
    f_ref : forall q q' c, nfind q m = Some c -> nfind q' m = Some c -> q = q' \/ (lumped d init f q /\ lumped d init f q') }.

  Lemma fin_start : let '(ns, m) := fold_left (compact_place d n) (seq 0 N) (map (fun q => [q]) init ++ [[]], compact_initial 0 init []) in fin ns m.
  Proof.
    assert (G : forall l j st, (j + l <= N)%nat -> place j (fst st) (snd st) ->
       place (j + l) (fst (fold_left (compact_place d n) (seq j l) st)) (snd (fold_left (compact_place d n) (seq j l) st))).
    { induction l as [|l IH]; intros j st Hj H; cbn [seq fold_left].
      - rewrite Nat.add_0_r. exact H.
      - replace (j + S l)%nat with (S j + l)%nat by lia. apply IH; [lia|]. destruct st as [ns m]. cbn [fst snd] in H.
        pose proof (place_step j ns m ltac:(lia) H) as PS. destruct (compact_place d n (ns, m) j) as [ns' m']. exact PS. }
    specialize (G N 0%nat (map (fun q => [q]) init ++ [[]], compact_initial 0 init []) ltac:(lia) place_start).
    destruct (fold_left _ _ _) as [ns m]. cbn [fst snd Nat.add] in G. destruct G as [P PI PC].
    pose proof FA as (Ff & Fi & Fa & Fm).
    destruct PC as [(_ & _ & HA)|(f' & (G1 & G2 & G3 & G4) & F2 & L & Hsp & Hne & Hl & Hu)].
    - exfalso. exact (HA f Ff Fi Fa).
    - assert (f' = f).
      { destruct (Nat.lt_trichotomy f f') as [H|[H|H]]; [exfalso; eapply G4; eauto|auto|exfalso; eapply Fm; eauto]. }
      subst f'. constructor; auto.
      + eapply pinv_ext; [|exact P]. intros q. split; [intros [H|H]; auto|auto].
      + intros c Hc. destruct (Nat.lt_ge_cases c n) as [Hcn|Hcn].
        * destruct (nth_error init c) as [q|] eqn:E; [|apply nth_error_None in E; unfold n in Hcn; lia].
          apply (PI c q Hcn) in E. apply (p_class _ _ _ P) in E. intros X. rewrite X in E. destruct E.
        * apply Hne. lia.
      + intros q q' c H1 H2. destruct (Nat.lt_trichotomy c n) as [Hc|[->|Hc]].
        * apply (PI c q Hc) in H1. apply (PI c q' Hc) in H2. left. congruence.
        * right. split; auto.
        * left. eapply Hu; eauto.
  Qed.

  Definition uniform ns m c : Prop := forall first rest, nth c ns [] = first :: rest ->
    forall q, In q rest -> compact_different d first (compact_template d m first) m q = false.

  Lemma split_fold first tm m sp : msorted Nat.ltb m -> forall rest m0 rem0, msorted Nat.ltb m0 ->
    (forall q, nfind q m0 = if in_dec Nat.eq_dec q rem0 then Some sp else nfind q m) ->
    let '(m1, removed) := fold_left (fun acc q =>
          let '(m, removed) := acc in
          if compact_different d first tm m q then (mset Nat.ltb q sp m, removed ++ [q]) else acc) rest (m0, rem0) in
    msorted Nat.ltb m1 /\
    (exists t, removed = rem0 ++ t /\ incl t rest) /\
    (forall q, nfind q m1 = if in_dec Nat.eq_dec q removed then Some sp else nfind q m) /\
    (removed = [] -> m1 = m0 /\ forall q, In q rest -> compact_different d first tm m0 q = false).
  Proof.
    intros Hm. induction rest as [|a rest IH]; intros m0 rem0 Hs Hf; cbn [fold_left].
    - split; [exact Hs|]. split; [exists []; rewrite app_nil_r; split; [reflexivity|intros ? []]|]. split; [exact Hf|]. intros _. split; [reflexivity|intros ? []].
    - destruct (compact_different d first tm m0 a) eqn:E.
      + specialize (IH (mset Nat.ltb a sp m0) (rem0 ++ [a]) (nset_sorted _ _ _ Hs)).
        destruct (fold_left _ rest _) as [m1 removed]. destruct IH as (I1 & (t & I2 & I2') & I3 & I4).
        { intros q. destruct (Nat.eq_dec q a) as [->|Hn].
          - rewrite nset_same by exact Hs. destruct (in_dec Nat.eq_dec a (rem0 ++ [a])) as [|Hx]; [reflexivity|]. exfalso. apply Hx. apply in_or_app. cbn; auto.
          - rewrite nset_other by assumption. rewrite Hf. destruct (in_dec Nat.eq_dec q rem0) as [H|H], (in_dec Nat.eq_dec q (rem0 ++ [a])) as [H'|H']; auto.
            + exfalso. apply H'. apply in_or_app. auto.
            + exfalso. apply in_app_or in H' as [H'|[H'|[]]]; [auto|congruence]. }
        split; [exact I1|]. split; [exists (a :: t); split; [rewrite I2, <- app_assoc; reflexivity|intros x [<-|Hx]; cbn; auto]|].
        split; [exact I3|]. intros H. rewrite I2 in H. destruct rem0; discriminate.
      + specialize (IH m0 rem0 Hs Hf). destruct (fold_left _ rest _) as [m1 removed]. destruct IH as (I1 & (t & I2 & I2') & I3 & I4).
        split; [exact I1|]. split; [exists t; split; [exact I2|intros x Hx; cbn; auto]|]. split; [exact I3|].
        intros H. destruct (I4 H) as [J1 J2]. split; [exact J1|]. intros q [<-|Hq]; auto.
  Qed.

  Lemma split_spec ns m c : fin ns m ->
    let '(ns', m', ch) := compact_split d (ns, m) c in
    fin ns' m' /\ (ch = false -> ns' = ns /\ m' = m /\ uniform ns m c) /\ (ch = true -> length ns' = S (length ns)).
  Proof.
    intros F. pose proof F as [P L SP NE FI FR]. unfold compact_split.
    destruct (nth c ns []) as [|first [|q2 rest]] eqn:EC.
    - split; [exact F|]. split; [|discriminate]. intros _. split; [reflexivity|]. split; [reflexivity|]. intros x y E. congruence.
    - split; [exact F|]. split; [|discriminate]. intros _. split; [reflexivity|]. split; [reflexivity|]. intros x y E q Hq. rewrite EC in E. inv E. destruct Hq.
    - set (sp := (length ns - 1)%nat).
      pose proof (split_fold first (compact_template d m first) m sp (p_sorted _ _ _ P) (q2 :: rest) m [] (p_sorted _ _ _ P)) as SF.
      assert (PR : forall q, nfind q m = (if in_dec Nat.eq_dec q [] then Some sp else nfind q m)).
      { intros q. destruct (in_dec Nat.eq_dec q []) as [H|H]; [destruct H|reflexivity]. }
      specialize (SF PR). clear PR.
      unfold oldmap in *. destruct (fold_left _ (q2 :: rest) (m, [])) as [m1 removed]. destruct SF as (S1 & (t & S2 & S2') & S3 & S4).
      cbn [app] in S2. subst t.
      assert (Csort := p_cs _ _ _ P c). rewrite EC in Csort. pose proof Csort as Csort'. apply ssorted_cons in Csort as [_ Cl].
      assert (Hfirst : ~ In first removed). { intros H. apply S2' in H. specialize (Cl _ H). lia. }
      destruct removed as [|r0 removed'] eqn:ER.
      + destruct (S4 eq_refl) as [E1 E2]. subst m1. split; [exact F|]. split; [|discriminate]. intros _. split; [reflexivity|]. split; [reflexivity|].
        intros x y E. rewrite EC in E. inv E. exact E2.
      + rewrite <- ER in *. assert (Rne : removed <> []) by (rewrite ER; discriminate). clear ER r0 removed' S4.
        assert (Hc : (c < length ns)%nat). { destruct (Nat.lt_ge_cases c (length ns)) as [|H]; [assumption|]. rewrite nth_overflow in EC by exact H. discriminate. }
        assert (Hcs : c <> sp). { intros ->. unfold sp in EC. rewrite SP in EC. discriminate. }
        assert (Hcs' : (c < sp)%nat) by (unfold sp in *; lia).
        assert (Hcn : (n <= c)%nat).
        { destruct (Nat.lt_ge_cases c n) as [H|]; [|assumption].
          assert (X1 : nfind first m = Some c) by (apply (p_class _ _ _ P); rewrite EC; cbn; auto).
          assert (X2 : nfind q2 m = Some c) by (apply (p_class _ _ _ P); rewrite EC; cbn; auto).
          apply (FI c _ H) in X1. apply (FI c _ H) in X2. specialize (Cl q2 (or_introl eq_refl)). replace q2 with first in Cl by congruence. lia. }
        assert (RC : forall q, In q removed -> nfind q m = Some c).
        { intros q Hq. apply (p_class _ _ _ P). rewrite EC. right. apply S2'. exact Hq. }
        set (ns1 := ns ++ [[]]).
        set (ns2 := set_nth sp (fold_left (fun s q => sins Nat.ltb q s) removed (nth sp ns1 [])) ns1).
        set (ns3 := set_nth c (fold_left (fun s q => serase Nat.ltb q s) removed (nth c ns2 [])) ns2).
        assert (L3 : length ns3 = S (length ns)) by (unfold ns3, ns2, ns1; rewrite !set_nth_length, app_length; cbn; lia).
        assert (Nsp : nth sp ns1 [] = []) by (unfold ns1; rewrite nth_app_nil; exact SP).
        assert (N3sp : nth sp ns3 [] = fold_left (fun s q => sins Nat.ltb q s) removed []).
        { unfold ns3. rewrite set_nth_other by lia. unfold ns2. rewrite set_nth_same by (unfold ns1; rewrite app_length; cbn; lia). rewrite Nsp. reflexivity. }
        assert (N3c : nth c ns3 [] = fold_left (fun s q => serase Nat.ltb q s) removed (nth c ns [])).
        { unfold ns3. rewrite set_nth_same by (unfold ns2, ns1; rewrite set_nth_length, app_length; lia).
          unfold ns2. rewrite set_nth_other by lia. unfold ns1. rewrite nth_app_nil. reflexivity. }
        assert (N3o : forall x, x <> sp -> x <> c -> nth x ns3 [] = nth x ns []).
        { intros x H1 H2. unfold ns3. rewrite set_nth_other by exact H2. unfold ns2. rewrite set_nth_other by exact H1. unfold ns1. apply nth_app_nil. }
        assert (CSs : ssorted Nat.ltb (nth c ns [])) by apply (p_cs _ _ _ P).
        split; [|split; [discriminate|intros _; exact L3]]. constructor.
        * constructor.
          -- exact S1.
          -- intros x q. rewrite S3. destruct (Nat.eq_dec x sp) as [->|Hx]; [|destruct (Nat.eq_dec x c) as [->|Hx']].
             ++ rewrite N3sp, sins_fold_in. destruct (in_dec Nat.eq_dec q removed) as [H|H]; [split; auto|].
                split; [intros [|[]]; contradiction|]. intros X. apply (p_class _ _ _ P) in X. unfold sp in X. rewrite SP in X. destruct X.
             ++ rewrite N3c, serase_fold_in by exact CSs. rewrite (p_class _ _ _ P). destruct (in_dec Nat.eq_dec q removed) as [H|H]; [|tauto].
                split; [tauto|]. intros X. inv X. congruence.
             ++ rewrite N3o by assumption. rewrite (p_class _ _ _ P). destruct (in_dec Nat.eq_dec q removed) as [H|H]; [|tauto].
                apply RC in H. rewrite H. split; congruence.
          -- intros x. destruct (Nat.eq_dec x sp) as [->|Hx]; [|destruct (Nat.eq_dec x c) as [->|Hx']].
             ++ rewrite N3sp. apply sins_fold_sorted. constructor.
             ++ rewrite N3c. apply serase_fold_sorted. exact CSs.
             ++ rewrite N3o by assumption. apply (p_cs _ _ _ P).
          -- intros q. rewrite S3. destruct (in_dec Nat.eq_dec q removed) as [H|H]; [|apply (p_dom _ _ _ P)].
             split; [|eauto]. intros _. apply (p_dom _ _ _ P). exists c. auto.
        * lia.
        * rewrite L3. rewrite N3o by (unfold sp in *; lia). apply nth_overflow. lia.
        * rewrite L3. intros x Hx. destruct (Nat.eq_dec x sp) as [->|Hx1]; [|destruct (Nat.eq_dec x c) as [->|Hx']].
          -- rewrite N3sp. destruct (hd_in _ Rne) as (a & t & E). intros X.
             assert (Y : In a (fold_left (fun s q => sins Nat.ltb q s) removed [])) by (apply sins_fold_in; rewrite E; cbn; auto).
             rewrite X in Y. destruct Y.
          -- rewrite N3c. intros X. assert (Y : In first (fold_left (fun s q => serase Nat.ltb q s) removed (nth c ns []))).
             { apply serase_fold_in; [exact CSs|]. split; [rewrite EC; cbn; auto|exact Hfirst]. }
             rewrite X in Y. destruct Y.
          -- rewrite N3o by assumption. apply NE. unfold sp in *. lia.
        * intros k q Hk. rewrite S3. rewrite (FI k q Hk). destruct (in_dec Nat.eq_dec q removed) as [H|H]; [|tauto].
          apply RC in H. rewrite H. split; intros X; inv X; lia.
        * intros q q' x. rewrite !S3. destruct (in_dec Nat.eq_dec q removed) as [H|H], (in_dec Nat.eq_dec q' removed) as [H'|H'].
          -- intros _ _. eapply FR; eauto.
          -- intros X Y. inv X. apply (p_class _ _ _ P) in Y. unfold sp in Y. rewrite SP in Y. destruct Y.
          -- intros Y X. inv X. apply (p_class _ _ _ P) in Y. unfold sp in Y. rewrite SP in Y. destruct Y.
          -- apply FR.
  Qed.

  Lemma fin_bound ns m : fin ns m -> (length ns <= S N)%nat.
  Proof.
    intros [P L SP NE FI FR].
    set (reps := map (fun c => hd O (nth c ns [])) (seq 0 (length ns - 1))).
    assert (HR : forall c, (c < length ns - 1)%nat -> nfind (hd O (nth c ns [])) m = Some c).
    { intros c Hc. apply (p_class _ _ _ P). destruct (hd_in _ (NE c Hc)) as (a & t & ->). cbn; auto. }
    assert (ND : NoDup reps).
    { unfold reps. assert (G : forall k l, (k + l <= length ns - 1)%nat -> NoDup (map (fun c => hd O (nth c ns [])) (seq k l))).
      { intros k l. revert k. induction l as [|l IH]; intros k Hk; cbn [seq map]; [constructor|]. constructor; [|apply IH; lia].
        intros H. apply in_map_iff in H as (c & E & Hc). apply in_seq in Hc. pose proof (HR c ltac:(lia)) as H1. pose proof (HR k ltac:(lia)) as H2.
        rewrite E in H1. rewrite H1 in H2. inv H2. lia. }
      apply G. lia. }
    assert (IC : incl reps (seq 0 N)).
    { intros q Hq. apply in_map_iff in Hq as (c & <- & Hc). apply in_seq in Hc. apply in_seq. split; [lia|]. cbn.
      apply (p_dom _ _ _ P). exists c. apply HR. lia. }
    apply NoDup_incl_length in IC; [|exact ND]. unfold reps in IC. rewrite map_length, !seq_length in IC. lia.
  Qed.

  Lemma pass_spec : forall fuel c ns m ch, fin ns m ->
    (forall ns' m' ch', compact_pass fuel d c (ns, m) ch = Some (ns', m', ch') ->
      fin ns' m' /\ (length ns <= length ns')%nat /\
      (ch' = true -> ch = true \/ (length ns < length ns')%nat) /\
      (ch' = false -> ch = false /\ ns' = ns /\ m' = m /\ forall x, (c <= x < length ns)%nat -> uniform ns m x)) /\
    ((S N <= fuel + c)%nat -> compact_pass fuel d c (ns, m) ch <> None).
  Proof.
    induction fuel as [|fuel IH]; intros c ns m ch F; cbn [compact_pass fst]; destruct (Nat.leb_spec (length ns) c) as [Hc|Hc].
    - split; [|discriminate]. intros ns' m' ch' E. inv E. split; [exact F|]. split; [lia|]. split; [auto|]. intros ->.
      split; [reflexivity|]. split; [reflexivity|]. split; [reflexivity|]. intros; lia.
    - split; [discriminate|]. intros H. pose proof (fin_bound _ _ F). lia.
    - split; [|discriminate]. intros ns' m' ch' E. inv E. split; [exact F|]. split; [lia|]. split; [auto|]. intros ->.
      split; [reflexivity|]. split; [reflexivity|]. split; [reflexivity|]. intros; lia.
    - pose proof (split_spec ns m c F) as S. destruct (compact_split d (ns, m) c) as [[ns1 m1] ch1]. destruct S as (F1 & S2 & S3).
      destruct (IH (Datatypes.S c) ns1 m1 (ch || ch1) F1) as [J1 J2]. split; [|intros H; apply J2; lia].
      intros ns' m' ch' E. destruct (J1 _ _ _ E) as (K1 & K2 & K3 & K4). split; [exact K1|].
      destruct ch1.
      + specialize (S3 eq_refl). split; [lia|]. split; [intros _; right; lia|]. intros H. destruct (K4 H) as (X & _).
        rewrite orb_true_r in X. discriminate.
      + destruct (S2 eq_refl) as (-> & -> & U). split; [exact K2|]. rewrite orb_false_r in *. split; [exact K3|].
        intros H. destruct (K4 H) as (X1 & X2 & X3 & X4). split; [exact X1|]. split; [exact X2|]. split; [exact X3|].
        intros x Hx. destruct (Nat.eq_dec x c) as [->|]; [exact U|apply X4; lia].
  Qed.

  Lemma loop_spec pfuel : forall fuel ns m, fin ns m ->
    (forall ns' m', compact_loop fuel pfuel d (ns, m) = Some (ns', m') ->
       fin ns' m' /\ forall c, (c < length ns')%nat -> uniform ns' m' c) /\
    ((S N <= pfuel)%nat -> (N + 2 < fuel + length ns)%nat -> compact_loop fuel pfuel d (ns, m) <> None).
  Proof.
    induction fuel as [|fuel IH]; intros ns m F; cbn [compact_loop].
    - split; [discriminate|]. intros _ H. pose proof (fin_bound _ _ F). lia.
    - destruct (pass_spec pfuel 0 ns m false F) as [P1 P2].
      destruct (compact_pass pfuel d 0 (ns, m) false) as [[[ns1 m1] ch]|] eqn:E.
      + destruct (P1 _ _ _ eq_refl) as (F1 & L1 & C1 & C2). destruct ch.
        * destruct (IH ns1 m1 F1) as [J1 J2]. split; [exact J1|]. intros H1 H2. apply J2; [exact H1|].
          destruct (C1 eq_refl) as [|]; [discriminate|]. lia.
        * split; [|discriminate]. intros ns' m' X. inv X. destruct (C2 eq_refl) as (_ & -> & -> & U). split; [exact F1|].
          intros c Hc. apply U. lia.
      + split; [discriminate|]. intros H _. exfalso. apply P2; [lia|reflexivity].
  Qed.
End Compact.

(** * The automaton built from the final partition *)
Section Result.
  Context {A : Type}.
  Variables (d : ndfa A) (init : list nat) (f : nat) (ns : list (list nat)) (m : oldmap).
  Let N := count_states d.
  Hypothesis OK : ndfa_ok d.
  Hypothesis VD : verify_is_dfa d = true.
  Hypothesis F : fin d init f ns m.
  Hypothesis U : forall c, (c < length ns)%nat -> uniform d ns m c.

  Definition cls q := mget m q.

  Lemma cls_find q : (q < N)%nat -> nfind q m = Some (cls q).
  Proof.
    intros H. apply (p_dom _ _ _ (f_p _ _ _ _ _ F)) in H as [c H]. unfold cls, mget. rewrite H. reflexivity.
  Qed.

  Lemma state_nodup q : NoDup (map fst (get_state d q)).
  Proof.
    destruct (Nat.lt_ge_cases q N) as [H|H].
    - apply (proj1 (verify_is_dfa_spec d) VD). apply nth_In. exact H.
    - rewrite get_state_out by exact H. constructor.
  Qed.

  Lemma nodup_fst_fun {V} (l : list (Z * V)) : NoDup (map fst l) -> forall i a b, In (i, a) l -> In (i, b) l -> a = b.
  Proof.
    induction l as [|[j v] l IH]; intros ND i a b Ha Hb; [destruct Ha|]. cbn [map fst] in ND. inv ND.
    destruct Ha as [E|Ha], Hb as [E'|Hb].
    - congruence.
    - inv E. exfalso. apply H1. apply (in_map fst) in Hb. exact Hb.
    - inv E'. exfalso. apply H1. apply (in_map fst) in Ha. exact Ha.
    - eauto.
  Qed.

  Lemma template_spec first i c : mfind Z.ltb i (compact_template d m first) = Some c <->
    exists t, In (i, t) (get_state d first) /\ c = cls t.
  Proof.
    unfold compact_template. pose proof (state_nodup first) as ND.
    assert (G : forall l tm, NoDup (map fst l) -> msorted Z.ltb tm -> (forall i, In i (map fst l) -> mfind Z.ltb i tm = None) ->
      mfind Z.ltb i (fold_left (fun tm (t : transition) => mset Z.ltb (fst t) (mget m (snd t)) tm) l tm) = Some c <->
      mfind Z.ltb i tm = Some c \/ exists t, In (i, t) l /\ c = cls t).
    { induction l as [|[j t] l IH]; intros tm NDl Hs Hn; cbn [fold_left fst snd].
      - split; [auto|]. intros [H|(t & [] & _)]. exact H.
      - cbn [map fst] in NDl. inv NDl. rewrite IH; [|assumption|apply mset_sorted; [apply Zltb_strict|exact Hs]|].
        + destruct (Z.eq_dec i j) as [->|Hij].
          * rewrite (mfind_mset_same _ Zltb_strict) by exact Hs. rewrite (Hn j) by (cbn; auto). split.
            -- intros [E|(t' & Hin & _)]; [inv E; right; exists t; cbn; auto|]. exfalso. apply H1. apply (in_map fst) in Hin. exact Hin.
            -- intros [E|(t' & [E|Hin] & ->)]; [discriminate|inv E; auto|]. exfalso. apply H1. apply (in_map fst) in Hin. exact Hin.
          * rewrite (mfind_mset_other _ Zltb_strict) by assumption. cbn [In]. split.
            -- intros [E|(t' & Hin & ->)]; [auto|right; exists t'; auto].
            -- intros [E|(t' & [E|Hin] & ->)]; [auto|inv E; congruence|right; exists t'; auto].
        + intros k Hk. rewrite (mfind_mset_other _ Zltb_strict); [apply Hn; cbn; auto|exact Hs|intros ->; contradiction]. }
    rewrite G; [|exact ND|constructor|reflexivity]. cbn [mfind]. split; [intros [E|H]; [discriminate|exact H]|auto].
  Qed.

  Lemma same_stable first q : compact_different d first (compact_template d m first) m q = false ->
    (forall i t, In (i, t) (get_state d q) -> exists t', In (i, t') (get_state d first) /\ cls t = cls t') /\
    (forall i t, In (i, t) (get_state d first) -> exists t', In (i, t') (get_state d q) /\ cls t = cls t').
  Proof.
    unfold compact_different. intros H. apply orb_false_iff in H as [H1 H2]. apply negb_false_iff, Nat.eqb_eq in H1.
    assert (G : forall i t, In (i, t) (get_state d q) -> exists t', In (i, t') (get_state d first) /\ cls t = cls t').
    { intros i t Hin. destruct (mfind Z.ltb i (compact_template d m first)) as [c|] eqn:E.
      - destruct (Nat.eqb c (mget m t)) eqn:E2.
        + apply Nat.eqb_eq in E2. subst c. apply template_spec in E as (t' & H3 & H4). exists t'. auto.
        + assert (existsb (fun t : transition => match mfind Z.ltb (fst t) (compact_template d m first) with
             | Some c => negb (Nat.eqb c (mget m (snd t))) | None => true end) (get_state d q) = true); [|congruence].
          apply existsb_exists. exists (i, t). split; [exact Hin|]. cbn [fst snd]. rewrite E, E2. reflexivity.
      - assert (existsb (fun t : transition => match mfind Z.ltb (fst t) (compact_template d m first) with
             | Some c => negb (Nat.eqb c (mget m (snd t))) | None => true end) (get_state d q) = true); [|congruence].
        apply existsb_exists. exists (i, t). split; [exact Hin|]. cbn [fst snd]. rewrite E. reflexivity. }
    split; [exact G|]. intros i t Hin.
    assert (I : incl (map fst (get_state d first)) (map fst (get_state d q))).
    { apply NoDup_length_incl; [apply state_nodup|rewrite !map_length; apply Nat.eq_le_incl; symmetry; exact H1|].
      intros j Hj. apply in_map_iff in Hj as ([j' t'] & E & Hj). cbn in E. subst j'. destruct (G _ _ Hj) as (t2 & H3 & _).
      apply (in_map fst) in H3. exact H3. }
    assert (Hi : In i (map fst (get_state d q))) by (apply I; apply (in_map fst) in Hin; exact Hin).
    apply in_map_iff in Hi as ([i' t'] & E & Hi). cbn in E. subst i'. exists t'. split; [exact Hi|].
    destruct (G _ _ Hi) as (t2 & H3 & H4). rewrite H4. f_equal. eapply nodup_fst_fun; [apply (state_nodup first)| |]; eauto.
  Qed.

  Lemma stable q q' : (q < N)%nat -> (q' < N)%nat -> cls q = cls q' ->
    forall i t, In (i, t) (get_state d q) -> exists t', In (i, t') (get_state d q') /\ cls t = cls t'.
  Proof.
    intros Hq Hq' E. pose proof (cls_find q Hq) as Fq. pose proof (cls_find q' Hq') as Fq'. rewrite <- E in Fq'.
    apply (p_class _ _ _ (f_p _ _ _ _ _ F)) in Fq, Fq'.
    assert (Hc : (cls q < length ns)%nat) by (eapply pinv_len; [apply (f_p _ _ _ _ _ F)|apply cls_find; exact Hq]).
    specialize (U _ Hc). unfold uniform in U. destruct (nth (cls q) ns []) as [|first rest]; [destruct Fq|]. specialize (U _ _ eq_refl).
    assert (ST : forall x, In x (first :: rest) ->
      (forall i t, In (i, t) (get_state d x) -> exists t', In (i, t') (get_state d first) /\ cls t = cls t') /\
      (forall i t, In (i, t) (get_state d first) -> exists t', In (i, t') (get_state d x) /\ cls t = cls t')).
    { intros x [<-|Hx]; [split; eauto|]. apply same_stable. apply U. exact Hx. }
    intros i t Hin. destruct (proj1 (ST _ Fq) _ _ Hin) as (t1 & H1 & H2). destruct (proj2 (ST _ Fq') _ _ H1) as (t2 & H3 & H4).
    exists t2. split; [exact H3|congruence].
  Qed.

  Lemma path_bound q w q' : path d q w q' -> (q < N)%nat -> (q' < N)%nat.
  Proof.
    induction 1 as [q|q id r w q' Hin He Hp IH|q id r x w q' Hin Hc Hp IH]; intros H; auto; apply IH; eapply ok_trans; eauto.
  Qed.

  Lemma path_stable q w a : path d q w a -> forall q', (q < N)%nat -> (q' < N)%nat -> cls q = cls q' ->
    exists b, path d q' w b /\ cls b = cls a.
  Proof.
    induction 1 as [q|q id r w q2 Hin He Hp IH|q id r x w q2 Hin Hc Hp IH]; intros q' Hq Hq' E.
    - exists q'. split; [constructor|auto].
    - destruct (stable q q' Hq Hq' E _ _ Hin) as (t' & H1 & H2).
      destruct (IH t') as (b & H3 & H4); [eapply ok_trans; eauto|eapply ok_trans; eauto|exact H2|].
      exists b. split; [|exact H4]. eapply path_eps; eauto.
    - destruct (stable q q' Hq Hq' E _ _ Hin) as (t' & H1 & H2).
      destruct (IH t') as (b & H3 & H4); [eapply ok_trans; eauto|eapply ok_trans; eauto|exact H2|].
      exists b. split; [|exact H4]. eapply path_sym; eauto.
  Qed.

  (** the result *)
  Definition tmpl c := hd O (nth c ns []).

  Lemma tmpl_find c : (c < length ns - 1)%nat -> nfind (tmpl c) m = Some c /\ (tmpl c < N)%nat /\ cls (tmpl c) = c.
  Proof.
    intros H. assert (X : nfind (tmpl c) m = Some c).
    { apply (p_class _ _ _ (f_p _ _ _ _ _ F)). unfold tmpl. destruct (hd_in _ (f_ne _ _ _ _ _ F c H)) as (a & t & ->). cbn; auto. }
    split; [exact X|]. split; [apply (p_dom _ _ _ (f_p _ _ _ _ _ F)); eauto|]. unfold cls, mget. rewrite X. reflexivity.
  Qed.

  Lemma build_spec : forall l c, (forall s, In s l -> s <> []) ->
    compact_build d m c (l ++ [[]]) =
    (map (fun s => compact_state d m (hd O s)) l,
     map (fun p => (fst p, actions_for_state d (hd O (snd p)))) (combine (seq c (length l)) l)).
  Proof.
    induction l as [|s l IH]; intros c H; cbn [app compact_build]; [reflexivity|].
    rewrite IH by (intros; apply H; right; assumption). destruct s as [|a s]; [exfalso; apply (H []); cbn; auto|]. reflexivity.
  Qed.

  Lemma ns_split : ns = removelast ns ++ [[]].
  Proof.
    assert (H : ns <> []) by (intros E; pose proof (f_len _ _ _ _ _ F) as L; rewrite E in L; cbn in L; lia).
    pose proof (app_removelast_last [] H) as E. rewrite E at 1. f_equal. f_equal.
    rewrite last_nth. exact (f_spare _ _ _ _ _ F).
  Qed.

  Let L := (length ns - 1)%nat.
  Let r := let '(states, acc) := compact_build d m 0 ns in mkN states (n_symbols d) acc.

  Lemma removelast_len : length (removelast ns) = L.
  Proof. pose proof ns_split as E. apply (f_equal (@length _)) in E. rewrite app_length in E. cbn [length] in E. unfold L. lia. Qed.

  Lemma removelast_nth c : nth c (removelast ns) [] = nth c ns [].
  Proof. rewrite ns_split at 2. rewrite nth_app_nil. reflexivity. Qed.

  Lemma removelast_ne s : In s (removelast ns) -> s <> [].
  Proof.
    intros H. apply (In_nth _ _ []) in H as (c & Hc & <-). rewrite removelast_nth. apply (f_ne _ _ _ _ _ F). rewrite removelast_len in Hc. exact Hc.
  Qed.

  Lemma r_eq : r = mkN (map (fun s => compact_state d m (hd O s)) (removelast ns)) (n_symbols d)
     (map (fun p => (fst p, actions_for_state d (hd O (snd p)))) (combine (seq 0 L) (removelast ns))).
  Proof. unfold r. rewrite ns_split at 1. rewrite build_spec by apply removelast_ne. rewrite removelast_len. reflexivity. Qed.

  Lemma r_count : count_states r = L.
  Proof. rewrite r_eq. unfold count_states. cbn [n_states]. rewrite map_length. apply removelast_len. Qed.

  Lemma r_get c : (c < L)%nat -> get_state r c = compact_state d m (tmpl c).
  Proof.
    intros H. rewrite r_eq. unfold get_state. cbn [n_states].
    rewrite (nth_indep _ [] (compact_state d m (hd O []))) by (rewrite map_length, removelast_len; exact H).
    rewrite (map_nth (fun s => compact_state d m (hd O s))). rewrite removelast_nth. reflexivity.
  Qed.

  Lemma combine_seq_in {X} (l : list X) : forall c x k, In (k, x) (combine (seq c (length l)) l) <-> (c <= k)%nat /\ nth_error l (k - c) = Some x.
  Proof.
    induction l as [|a l IH]; intros c x k; cbn [length seq combine].
    - split; [intros []|]. intros [_ H]. destruct (k - c)%nat; discriminate.
    - cbn [In]. rewrite IH. split.
      + intros [E|[H1 H2]].
        * inv E. rewrite Nat.sub_diag. split; [lia|reflexivity].
        * split; [lia|]. replace (k - c)%nat with (S (k - S c)) by lia. exact H2.
      + intros [H1 H2]. destruct (Nat.eq_dec k c) as [->|Hn].
        * rewrite Nat.sub_diag in H2. inv H2. auto.
        * right. split; [lia|]. replace (k - c)%nat with (S (k - S c)) in H2 by lia. exact H2.
  Qed.

  Lemma combine_sorted {X Y} (g : X -> Y) (l : list X) : forall c,
    msorted Nat.ltb (map (fun p => (fst p, g (snd p))) (combine (seq c (length l)) l)).
  Proof.
    induction l as [|a l IH]; intros c; cbn [length seq combine map]; [constructor|].
    apply msorted_cons. split; [apply IH|]. intros [k y] H. apply in_map_iff in H as ([k' x] & E & H). inv E.
    apply combine_seq_in in H as [H _]. cbn [fst] in *. apply Nat.ltb_lt. cbn. lia.
  Qed.

  Lemma r_acts c : (c < L)%nat -> actions_for_state r c = actions_for_state d (tmpl c).
  Proof.
    intros H. unfold actions_for_state at 1. rewrite r_count. replace (Nat.leb L c) with false by (symmetry; apply Nat.leb_gt; exact H).
    rewrite r_eq. cbn [n_accept].
    assert (E : nfind c (map (fun p => (fst p, actions_for_state d (hd O (snd p)))) (combine (seq 0 L) (removelast ns))) = Some (actions_for_state d (tmpl c))).
    { rewrite <- removelast_len. apply mfind_in; [apply natltb_strict|apply (combine_sorted (fun s => actions_for_state d (hd O s)))|].
      apply in_map_iff. exists (c, nth c ns []). split; [reflexivity|]. apply combine_seq_in. split; [lia|]. rewrite Nat.sub_0_r.
      rewrite <- removelast_nth. apply nth_error_nth'. rewrite removelast_len. exact H. }
    rewrite E. reflexivity.
  Qed.

  Lemma cstate_in q i c : In (i, c) (compact_state d m q) <-> exists t, In (i, t) (get_state d q) /\ c = cls t.
  Proof.
    unfold compact_state.
    assert (G : forall l acc, In (i, c) (fold_left (fun acc (t : transition) => sins trans_ltb (fst t, mget m (snd t)) acc) l acc) <->
       In (i, c) acc \/ exists t, In (i, t) l /\ c = cls t).
    { induction l as [|[j t] l IH]; intros acc; cbn [fold_left fst snd].
      - split; [auto|]. intros [H|(t & [] & _)]. exact H.
      - rewrite IH, (sins_in _ trans_strict). cbn [In]. split.
        + intros [[E|H]|(t' & H & ->)]; [inv E; right; exists t; auto|auto|right; exists t'; auto].
        + intros [H|(t' & [E|H] & ->)]; [auto|inv E; auto|right; exists t'; auto]. }
    rewrite G. cbn. split; [intros [[]|H]; exact H|auto].
  Qed.

  Lemma cstate_sorted q : ssorted trans_ltb (compact_state d m q).
  Proof.
    unfold compact_state. generalize (@nil transition) (SSorted_nil (fun a b => trans_ltb a b = true)). generalize (get_state d q).
    induction l as [|t l IH]; intros acc H; cbn [fold_left]; [exact H|]. apply IH. apply sins_sorted; [apply trans_strict|exact H].
  Qed.

  Lemma cls_bound q : (q < N)%nat -> (cls q < L)%nat.
  Proof.
    intros H. pose proof (cls_find q H) as E. pose proof (pinv_len _ _ _ _ _ (f_p _ _ _ _ _ F) E) as Hl.
    destruct (Nat.eq_dec (cls q) L) as [X|X]; [|unfold L in *; lia].
    apply (p_class _ _ _ (f_p _ _ _ _ _ F)) in E. rewrite X in E. unfold L in E. rewrite (f_spare _ _ _ _ _ F) in E. destruct E.
  Qed.

  Lemma r_trans q i t : (q < N)%nat -> In (i, t) (get_state d q) -> In (i, cls t) (get_state r (cls q)).
  Proof.
    intros Hq Hin. pose proof (cls_bound q Hq) as Hc. destruct (tmpl_find (cls q) Hc) as (_ & T1 & T2).
    rewrite r_get by exact Hc. apply cstate_in. destruct (stable q (tmpl (cls q)) Hq T1 ltac:(auto) _ _ Hin) as (t' & H1 & H2). exists t'. auto.
  Qed.

  Lemma r_trans_inv q i c : (q < N)%nat -> In (i, c) (get_state r (cls q)) -> exists t, In (i, t) (get_state d q) /\ c = cls t.
  Proof.
    intros Hq Hin. pose proof (cls_bound q Hq) as Hc. destruct (tmpl_find (cls q) Hc) as (_ & T1 & T2).
    rewrite r_get in Hin by exact Hc. apply cstate_in in Hin as (t' & H1 & ->).
    destruct (stable (tmpl (cls q)) q T1 Hq ltac:(auto) _ _ H1) as (t & H2 & H3). exists t. auto.
  Qed.

  Lemma r_symbols : n_symbols r = n_symbols d.
  Proof. rewrite r_eq. reflexivity. Qed.

  Lemma r_path q w q' : path d q w q' -> (q < N)%nat -> path r (cls q) w (cls q').
  Proof.
    induction 1 as [q|q id t w q' Hin He Hp IH|q id t x w q' Hin Hc Hp IH]; intros Hq; [constructor| |].
    - eapply path_eps; [eapply r_trans; eauto|rewrite r_symbols; exact He|]. apply IH. eapply ok_trans; eauto.
    - eapply path_sym; [eapply r_trans; eauto|rewrite r_symbols; exact Hc|]. apply IH. eapply ok_trans; eauto.
  Qed.

  Lemma r_path_inv c w c' : path r c w c' -> forall q, (q < N)%nat -> c = cls q -> exists q', path d q w q' /\ c' = cls q'.
  Proof.
    induction 1 as [c|c id t w c' Hin He Hp IH|c id t x w c' Hin Hc Hp IH]; intros q Hq E; subst c.
    - exists q. split; [constructor|reflexivity].
    - destruct (r_trans_inv q id t Hq Hin) as (t' & H1 & ->). destruct (IH t') as (q' & H2 & H3); [eapply ok_trans; eauto|reflexivity|].
      exists q'. split; [|exact H3]. rewrite r_symbols in He. eapply path_eps; eauto.
    - destruct (r_trans_inv q id t Hq Hin) as (t' & H1 & ->). destruct (IH t') as (q' & H2 & H3); [eapply ok_trans; eauto|reflexivity|].
      exists q'. split; [|exact H3]. rewrite r_symbols in Hc. eapply path_sym; eauto.
  Qed.

  Lemma compact_ok : ndfa_ok r.
  Proof.
    constructor.
    - rewrite r_symbols. apply (ok_symbols _ OK).
    - intros c i t Hin. destruct (Nat.lt_ge_cases c L) as [H|H]; [|rewrite get_state_out in Hin by (rewrite r_count; exact H); destruct Hin].
      rewrite r_get in Hin by exact H. apply cstate_in in Hin as (t' & H1 & ->). rewrite r_symbols, r_count.
      destruct (ok_trans _ OK _ _ _ H1) as [X1 X2]. split; [exact X1|]. apply cls_bound. exact X2.
    - intros c. destruct (Nat.lt_ge_cases c L) as [H|H]; [|rewrite get_state_out by (rewrite r_count; exact H); constructor].
      rewrite r_get by exact H. apply cstate_sorted.
    - rewrite r_eq. cbn [n_accept]. rewrite <- removelast_len. apply (combine_sorted (fun s => actions_for_state d (hd O s))).
  Qed.

  Lemma compact_verify : verify_is_dfa r = true.
  Proof.
    apply verify_is_dfa_spec. intros st Hst. apply (In_nth _ _ []) in Hst as (c & Hc & <-).
    change (nth c (n_states r) []) with (get_state r c). pose proof r_count as RC. unfold count_states in RC. rewrite RC in Hc.
    pose proof (ok_sorted _ compact_ok c) as SS. rewrite r_get in * by exact Hc.
    assert (FUN : forall i a b, In (i, a) (compact_state d m (tmpl c)) -> In (i, b) (compact_state d m (tmpl c)) -> a = b).
    { intros i a b Ha Hb. apply cstate_in in Ha as (t & H1 & ->). apply cstate_in in Hb as (t' & H2 & ->). f_equal.
      eapply nodup_fst_fun; [apply (state_nodup (tmpl c))| |]; eauto. }
    split.
    - revert SS FUN. generalize (compact_state d m (tmpl c)). induction l as [|[i t] l IH]; intros SS FUN; cbn [map fst]; [constructor|].
      apply SS_cons in SS as [S1 S2]. constructor.
      + intros H. apply in_map_iff in H as ([i' t'] & E & H). cbn in E. subst i'. assert (t = t') by (eapply FUN; cbn; eauto). subst t'.
        specialize (S2 _ H). rewrite (st_irrefl _ trans_strict) in S2. discriminate.
      + apply IH; [exact S1|]. intros. eapply FUN; right; eassumption.
    - intros H. apply in_map_iff in H as ([i t] & E & H). cbn in E. subst i. apply cstate_in in H as (t' & H & _).
      assert (NE : ~ In (eps_id d) (map fst (get_state d (tmpl c)))).
      { destruct (tmpl_find c Hc) as (_ & T & _). apply (proj1 (verify_is_dfa_spec d) VD). apply nth_In. exact T. }
      apply NE. apply (in_map fst) in H. cbn [fst] in H. unfold eps_id in *. rewrite r_symbols in H. exact H.
  Qed.

  Hypothesis DJ : disjoint_symbols d.

  Lemma d_det q w a b : path d q w a -> path d q w b -> a = b.
  Proof.
    destruct (ok_inv _ OK) as [I _].
    assert (NE : forall q id t, In (id, t) (get_state d q) -> sm_get (n_symbols d) id <> []).
    { intros x id t Hin E. apply (eps_id_spec _ I) in E; [|eapply ok_trans; eauto]. subst id.
      assert (X : (x < N)%nat) by (destruct (Nat.lt_ge_cases x N) as [|H]; [assumption|]; rewrite get_state_out in Hin by exact H; destruct Hin).
      apply (proj2 (proj1 (verify_is_dfa_spec d) VD (get_state d x) ltac:(apply nth_In; exact X))). apply (in_map fst) in Hin. exact Hin. }
    intros H. revert b. induction H as [q|q id r0 w a Hin He Hp IH|q id r0 x w a Hin Hc Hp IH]; intros b Hb.
    - inversion Hb as [|? ? ? ? ? Hin He|]; subst; [reflexivity|]. exfalso. eapply NE; eauto.
    - exfalso. eapply NE; eauto.
    - inversion Hb as [|? ? ? ? ? Hin' He'|? id' r' ? ? ? Hin' Hc' Hp']; subst; [exfalso; eapply NE; eauto|].
      assert (id' = id) by (apply (DJ id' id x); assumption). subst id'.
      assert (r' = r0) by (eapply nodup_fst_fun; [apply (state_nodup q)| |]; eauto). subst r'. apply IH. exact Hp'.
  Qed.

  Hypothesis FA : first_accepting d init f.
  Hypothesis SEP : forall p, (p < N)%nat -> ~ In p init -> ~ accepting d p -> told_apart d init f p.

  Lemma f_not_p p : (p < N)%nat -> ~ In p init -> ~ accepting d p -> cls f <> cls p.
  Proof.
    intros Hp Hi Ha E. destruct FA as (Hf & _). destruct (SEP p Hp Hi Ha) as (w & [[(q & H1) H2]|[[H1 (q & H2)]|(a & b & H1 & H2 & H3 & H4)]]).
    - destruct (path_stable _ _ _ H1 p Hf Hp E) as (b & Hb & _). eauto.
    - destruct (path_stable _ _ _ H2 f Hp Hf ltac:(auto)) as (b & Hb & _). eauto.
    - destruct (path_stable _ _ _ H1 p Hf Hp E) as (b' & Hb & Ec). assert (b' = b) by (eapply d_det; eauto). subst b'.
      pose proof (path_bound _ _ _ H1 Hf) as Xa. pose proof (path_bound _ _ _ H2 Hp) as Xb.
      pose proof (cls_find a Xa) as Ca. pose proof (cls_find b Xb) as Cb. rewrite Ec in Cb.
      destruct (f_ref _ _ _ _ _ F a b (cls a) Ca Cb) as [X|X]; auto.
  Qed.

  Lemma same_actions q q' : (q < N)%nat -> (q' < N)%nat -> cls q = cls q' -> actions_for_state d q = actions_for_state d q'.
  Proof.
    intros Hq Hq' E. pose proof (cls_find q Hq) as C. pose proof (cls_find q' Hq') as C'. rewrite <- E in C'.
    destruct (f_ref _ _ _ _ _ F q q' (cls q) C C') as [->|[(B1 & I1 & D1) (B2 & I2 & D2)]]; [reflexivity|].
    unfold accepting in *. destruct (Nat.eq_dec q q') as [->|Hne]; [reflexivity|].
    assert (NE : forall p, (p < N)%nat -> ~ In p init -> cls f = cls p -> actions_for_state d p <> []).
    { intros p X1 X2 X3 X4. apply (f_not_p p X1 X2); [|exact X3]. unfold accepting. congruence. }
    destruct D1 as [D1| ->], D2 as [D2| ->].
    - destruct (actions_for_state d q); [|exfalso; apply D1; discriminate]. destruct (actions_for_state d q'); [reflexivity|exfalso; apply D2; discriminate].
    - exfalso. apply D1. apply NE; auto.
    - exfalso. apply D2. apply NE; auto.
    - congruence.
  Qed.

  Lemma compact_accepts q w a : (q < N)%nat -> accepts r (cls q) w a <-> accepts d q w a.
  Proof.
    intros Hq. split.
    - intros (c & Hp & Ha). destruct (r_path_inv _ _ _ Hp q Hq eq_refl) as (q' & Hp' & ->). exists q'. split; [exact Hp'|].
      pose proof (path_bound _ _ _ Hp' Hq) as Hq'. pose proof (cls_bound _ Hq') as Hc. rewrite r_acts in Ha by exact Hc.
      destruct (tmpl_find _ Hc) as (_ & T1 & T2). rewrite (same_actions q' (tmpl (cls q'))); auto.
    - intros (q' & Hp & Ha). exists (cls q'). split; [apply r_path; assumption|].
      pose proof (path_bound _ _ _ Hp Hq) as Hq'. pose proof (cls_bound _ Hq') as Hc. rewrite r_acts by exact Hc.
      destruct (tmpl_find _ Hc) as (_ & T1 & T2). rewrite <- (same_actions q' (tmpl (cls q'))); auto.
  Qed.
End Result.

Section Main.
  Context {A : Type}.
  Implicit Types d : ndfa A.

  Theorem compact_terminates d init f : NoDup init -> (forall q, In q init -> (q < count_states d)%nat) ->
    first_accepting d init f -> exists fuel r, to_compact_dfa fuel d init = Some r.
  Proof.
    intros IN IB FA. pose proof (fin_start d init IN IB f FA) as FS. unfold to_compact_dfa.
    destruct (fold_left _ _ _) as [ns m].
    destruct (loop_spec d init IB f (count_states d + 3) (count_states d + 3) ns m FS) as [_ H].
    exists (count_states d + 3)%nat. destruct (compact_loop _ _ d (ns, m)) as [[ns' m']|] eqn:E.
    - destruct (compact_build d m' 0 ns'). eauto.
    - exfalso. apply H; [lia|lia|reflexivity].
  Qed.

  Theorem compact_correct d init f fuel r : ndfa_ok d -> disjoint_symbols d -> verify_is_dfa d = true ->
    NoDup init -> (forall q, In q init -> (q < count_states d)%nat) ->
    first_accepting d init f ->
    (forall p, (p < count_states d)%nat -> ~ In p init -> ~ accepting d p -> told_apart d init f p) ->
    to_compact_dfa fuel d init = Some r ->
    ndfa_ok r /\ verify_is_dfa r = true /\ n_symbols r = n_symbols d /\ (count_states r <= count_states d)%nat /\
    forall k q0, nth_error init k = Some q0 -> forall w a, accepts r k w a <-> accepts d q0 w a.
  Proof.
    intros OK DJ VD IN IB FA SEP E. pose proof (fin_start d init IN IB f FA) as FS. unfold to_compact_dfa in E.
    destruct (fold_left _ _ _) as [ns0 m0].
    destruct (loop_spec d init IB f fuel fuel ns0 m0 FS) as [H _].
    destruct (compact_loop fuel fuel d (ns0, m0)) as [[ns m]|] eqn:EL; [|discriminate].
    destruct (H _ _ eq_refl) as [F U].
    assert (Er : r = let '(states, acc) := compact_build d m 0 ns in mkN states (n_symbols d) acc).
    { destruct (compact_build d m 0 ns). inv E. reflexivity. }
    subst r. split; [eapply compact_ok; eauto|]. split; [eapply compact_verify; eauto|]. split; [eapply r_symbols; eauto|].
    split; [erewrite r_count by eauto; pose proof (fin_bound _ _ IB _ _ _ F); lia|].
    intros k q0 Hk w a.
    assert (Hq : (q0 < count_states d)%nat) by (apply IB; eapply nth_error_In; eauto).
    assert (Hc : cls m q0 = k).
    { unfold cls, mget. assert (X : nfind q0 m = Some k); [|rewrite X; reflexivity].
      apply (f_init _ _ _ _ _ F); [apply nth_error_Some; congruence|exact Hk]. }
    rewrite <- Hc. eapply compact_accepts; eauto.
  Qed.
End Main.
