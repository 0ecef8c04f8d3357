(** Proofs about FIRST sets. *)
From Verif Require Import Base OrdMap GrammarModel GrammarProofs FirstModel FirstSpec.
Local Open Scope Z_scope.

(** ** Finite sets *)
Definition set_ok (s : iset) : Prop := ssorted item_ltb s.
Lemma iinsert_in x s i : In x (iinsert i s) <-> x = i \/ In x s.
Proof. apply (sins_in _ item_strict). Qed.
Lemma iinsert_ok s i : set_ok s -> set_ok (iinsert i s).
Proof. intros H. apply (sins_sorted _ item_strict), H. Qed.
Lemma ierase_in x s i : set_ok s -> In x (ierase i s) <-> In x s /\ x <> i.
Proof. intros H. apply (serase_in _ item_strict), H. Qed.
Lemma ierase_ok s i : set_ok s -> set_ok (ierase i s).
Proof. intros H. apply (serase_sorted _ item_strict), H. Qed.
Lemma imerge_in t : forall x s, In x (imerge s t) <-> In x s \/ In x t.
Proof.
  unfold imerge. induction t as [|i t IH]; intros x s; cbn [fold_left]; [cbn; tauto|]. rewrite IH, iinsert_in. cbn [In]. intuition congruence.
Qed.
Lemma imerge_ok t : forall s, set_ok s -> set_ok (imerge s t).
Proof. unfold imerge. induction t as [|i t IH]; intros s H; cbn [fold_left]; [exact H|]. apply IH, iinsert_ok, H. Qed.
Lemma icontains_in s i : set_ok s -> icontains s i = true <-> In i s.
Proof. intros H. apply (smem_in _ item_strict), H. Qed.
Lemma icontains_not s i : set_ok s -> icontains s i = false <-> ~ In i s.
Proof. intros H. rewrite <- (icontains_in s i H). destruct (icontains s i); intuition congruence. Qed.
Lemma single_ok i : set_ok [i].
Proof. repeat constructor. Qed.

Scheme nullable_ind2 := Minimality for nullable Sort Prop with nullables_ind2 := Minimality for nullables Sort Prop.

Section Grammar.
  Context (rules : Z -> list (list item)).
  Notation nullable := (nullable rules).
  Notation nullables := (nullables rules).
  Notation starts := (starts rules).
  Notation has_body := (has_body rules).

  Lemma nullables_app l k : nullables (l ++ k) <-> nullables l /\ nullables k.
  Proof.
    induction l as [|i l IH]; cbn [app]; [split; [intros H; split; [constructor|exact H]|tauto]|]. split.
    - intros H. inversion H as [|? ? N1 N2]; subst. apply IH in N2. split; [constructor; tauto|tauto].
    - intros [H K]. inversion H as [|? ? N1 N2]; subst. constructor; [exact N1|]. apply IH. tauto.
  Qed.
  Lemma nullables_one i : nullables [i] <-> nullable i.
  Proof. split; [intros H; inversion H; assumption|intros H; constructor; [exact H|constructor]]. Qed.
  Lemma starts_not_empty i : ~ starts i IEmpty.
  Proof.
    intros H. remember IEmpty as s. induction H as [s S|i pre y post s B N S IH]; [subst; exact S|]. apply IH, Heqs.
  Qed.

  (** ** The cache *)
  Section Keeps.
    Context (P : first_cache -> Prop).
    Hypothesis HI : forall c i s, P c -> P (minsert item_ltb i s c).
    Hypothesis HS : forall c0 c i s, P c0 -> mfind item_ltb i c0 = None -> P c -> P (mset item_ltb i s c).
    Definition rec_keeps (rec : item -> first_cache -> option (first_cache * iset)) : Prop := forall i c c' s, P c -> rec i c = Some (c', s) -> P c'.
    Lemma rest_first_keeps rec l : rec_keeps rec -> forall c result c' s, P c -> rest_first rec l c result = Some (c', s) -> P c'.
    Proof.
      intros R. induction l as [|i l IH]; intros c result c' s C H; cbn [rest_first] in H; [injection H as <- <-; exact C|]. destruct (rec i c) as [[c1 f]|] eqn:F; [|discriminate H].
      pose proof (R _ _ _ _ C F). destruct (icontains f IEmpty); [eapply IH; eassumption|injection H as <- <-; assumption].
    Qed.
    Lemma rules_first_keeps rec rs : rec_keeps rec -> forall c result c' s, P c -> rules_first rec rs c result = Some (c', s) -> P c'.
    Proof.
      intros R. induction rs as [|[|i l] rs IH]; intros c result c' s C H; cbn [rules_first] in H; [injection H as <- <-; exact C|eapply IH; eassumption|].
      destruct (rec i c) as [[c1 f]|] eqn:F; [|discriminate H]. pose proof (R _ _ _ _ C F). destruct (icontains f IEmpty); [|eapply IH; eassumption].
      destruct (rest_first rec l c1 (imerge result f)) as [[c2 r2]|] eqn:G; [|discriminate H]. eapply IH; [|exact H]. eapply rest_first_keeps; eassumption.
    Qed.
    Lemma head_first_keeps rec r ie : rec_keeps rec -> forall c result c' s, P c -> head_first rec r c ie result = Some (c', s) -> P c'.
    Proof.
      intros R c result c' s C H. unfold head_first in H. destruct r as [|i r]; [injection H as <- <-; exact C|]. destruct (rec i c) as [[c1 f]|] eqn:F; [|discriminate H]. injection H as <- <-. eapply R; eassumption.
    Qed.
    Lemma alternatives_first_keeps rec rs : rec_keeps rec -> forall c result c' s, P c -> alternatives_first rec rs c result = Some (c', s) -> P c'.
    Proof.
      intros R. induction rs as [|r rs IH]; intros c result c' s C H; cbn [alternatives_first] in H; [injection H as <- <-; exact C|].
      destruct (head_first rec r c [IEmpty] result) as [[c1 r1]|] eqn:F; [|discriminate H]. eapply IH; [|exact H]. eapply head_first_keeps; eassumption.
    Qed.
    Lemma item_first_keeps rec i : rec_keeps rec -> forall c c' s, P c -> item_first rules rec i c = Some (c', s) -> P c'.
    Proof.
      intros R c c' s C H. destruct i as [| | |t|n|p l|[] rs]; cbn [item_first] in H; try (injection H as <- <-; exact C);
        [eapply rules_first_keeps|eapply head_first_keeps|eapply head_first_keeps|eapply alternatives_first_keeps|eapply head_first_keeps]; eassumption.
    Qed.
    Lemma first_keeps fuel : rec_keeps (first rules fuel).
    Proof.
      induction fuel as [|fuel IH]; intros i c c' s C H; cbn [first] in H; [discriminate H|]. destruct (mfind item_ltb i c) as [s0|] eqn:F0; [injection H as <- <-; exact C|].
      destruct (item_first rules (first rules fuel) i (minsert item_ltb i no_items c)) as [[c1 s1]|] eqn:G; [|discriminate H]. injection H as <- <-. eapply HS; [exact C|exact F0|]. eapply item_first_keeps; [exact IH| |exact G]. apply HI, C.
    Qed.
  End Keeps.
  Lemma first_sorted fuel i c c' s : msorted item_ltb c -> first rules fuel i c = Some (c', s) -> msorted item_ltb c'.
  Proof.
    apply (first_keeps (fun c => msorted item_ltb c)); [intros; apply (minsert_sorted _ item_strict); assumption|intros; apply (mset_sorted _ item_strict); assumption].
  Qed.
  (** An answer is not changed by later calls. *)
  Lemma first_stable fuel i c c' s k t : msorted item_ltb c -> mfind item_ltb k c = Some t -> first rules fuel i c = Some (c', s) -> mfind item_ltb k c' = Some t.
  Proof.
    intros S F H. assert (K : rec_keeps (fun c => msorted item_ltb c /\ mfind item_ltb k c = Some t) (first rules fuel)).
    { apply first_keeps.
      - intros c0 j v [S0 F0]. split; [apply (minsert_sorted _ item_strict), S0|]. rewrite (mfind_minsert _ item_strict) by exact S0. rewrite F0. reflexivity.
      - intros c0 c1 j v [_ F0] N [S1 F1]. split; [apply (mset_sorted _ item_strict), S1|]. rewrite (mfind_mset_other _ item_strict); [exact F1|exact S1|]. intros ->. congruence. }
    eapply K; [split; [exact S|exact F]|exact H].
  Qed.
  Lemma first_cached fuel i c c' s : msorted item_ltb c -> first rules fuel i c = Some (c', s) -> mfind item_ltb i c' = Some s.
  Proof.
    intros S H. pose proof (first_sorted fuel i c c' s S H) as S'. destruct fuel as [|fuel]; [discriminate H|]. cbn [first] in H. destruct (mfind item_ltb i c) as [s0|] eqn:F; [injection H as <- <-; exact F|].
    destruct (item_first rules (first rules fuel) i (minsert item_ltb i no_items c)) as [[c1 s1]|] eqn:G; [|discriminate H]. injection H as <- <-. apply (mfind_mset_same _ item_strict).
    eapply (item_first_keeps (fun c => msorted item_ltb c)); [|apply (minsert_sorted _ item_strict), S|exact G]. intros j d d' t Sd Hd. eapply first_sorted; eassumption.
  Qed.
  Lemma earlier_sorted u c : earlier rules u c -> msorted item_ltb c.
  Proof. induction 1 as [|c fuel i c' s E IH U H]; [constructor|]. eapply first_sorted; eassumption. Qed.

  (** ** Soundness *)
  Section Sound.
    Context (u : item -> Prop) (CU : closed rules u).
    Record cache_sound (c : first_cache) : Prop := {
      cs_sorted : msorted item_ltb c;
      cs_sets : forall i s, In (i, s) c -> set_ok s /\ first_sound rules i s }.
    Context (PE : plain_ebnf rules u).
    Definition rec_sound (rec : item -> first_cache -> option (first_cache * iset)) : Prop :=
      forall i c c' s, u i -> cache_sound c -> rec i c = Some (c', s) -> cache_sound c' /\ set_ok s /\ first_sound rules i s.

    Lemma rest_first_sound rec X pre : rec_sound rec -> forall rest c result c' s, u X -> has_body X (pre ++ rest) -> pre <> [] -> nullables pre ->
      cache_sound c -> set_ok result -> (forall x, In x result -> x <> IEmpty -> starts X x) -> (rest = [] -> first_sound rules X result) ->
      rest_first rec rest c result = Some (c', s) -> cache_sound c' /\ set_ok s /\ first_sound rules X s.
    Proof.
      intros RS rest. revert pre. induction rest as [|i rest IH]; intros pre c result c' s UX B NE NP C SO R E H; cbn [rest_first] in H.
      - injection H as <- <-. split; [exact C|]. split; [exact SO|]. apply E. reflexivity.
      - destruct (rec i c) as [[c1 next]|] eqn:F; [|discriminate H]. destruct (RS _ _ _ _ (CU _ _ i UX B (in_elt i pre rest)) C F) as (C1 & SO1 & FS).
        assert (SO2 : set_ok (imerge (ierase IEmpty result) next)) by (apply imerge_ok, ierase_ok, SO).
        assert (R2 : forall x, In x (imerge (ierase IEmpty result) next) -> x <> IEmpty -> starts X x).
        { intros x Hx Hn. apply imerge_in in Hx. destruct Hx as [Hx|Hx]; [apply ierase_in in Hx; [apply R; tauto|exact SO]|]. apply FS in Hx. destruct Hx as [[-> _]|Hx]; [contradiction|].
          eapply starts_body; eassumption. }
        destruct (icontains next IEmpty) eqn:K.
        + apply icontains_in in K; [|exact SO1]. assert (NI : nullable i) by (destruct (FS _ K) as [[_ N]|N]; [exact N|exfalso; eapply starts_not_empty, N]).
          assert (NP2 : nullables (pre ++ [i])) by (apply nullables_app; split; [exact NP|apply nullables_one, NI]).
          eapply (IH (pre ++ [i])); try eassumption.
          * rewrite <- app_assoc. exact B.
          * destruct pre; discriminate.
          * intros -> x Hx. destruct (item_eqb x IEmpty) eqn:EX; [apply item_eqb_spec in EX; left; split; [exact EX|]; eapply null_body; [exact B|exact NP2]|].
            right. apply R2; [exact Hx|]. intros ->. cbn in EX. discriminate EX.
        + injection H as <- <-. split; [exact C1|]. split; [exact SO2|]. intros x Hx. right. apply R2; [exact Hx|]. intros ->. apply icontains_not in K; [|exact SO1].
          apply imerge_in in Hx. destruct Hx as [Hx|Hx]; [apply ierase_in in Hx; [tauto|exact SO]|contradiction].
    Qed.
    Lemma rules_first_sound rec n : u (INonterm n) -> rec_sound rec -> forall rs c result c' s, (forall r, In r rs -> In r (rules n)) -> cache_sound c -> set_ok result -> first_sound rules (INonterm n) result ->
      rules_first rec rs c result = Some (c', s) -> cache_sound c' /\ set_ok s /\ first_sound rules (INonterm n) s.
    Proof.
      intros UX RS. induction rs as [|[|i rest] rs IH]; intros c result c' s I C SO FS H; cbn [rules_first] in H.
      - injection H as <- <-. auto.
      - eapply IH; [|exact C| | |exact H].
        + intros r Hr. apply I. right. exact Hr.
        + apply iinsert_ok, SO.
        + intros x Hx. apply iinsert_in in Hx. destruct Hx as [->|Hx]; [|apply FS, Hx]. left. split; [reflexivity|]. eapply null_body; [apply (I []); left; reflexivity|constructor].
      - destruct (rec i c) as [[c1 f]|] eqn:F; [|discriminate H]. destruct (RS _ _ _ _ (CU _ _ i UX (I _ (or_introl eq_refl)) (or_introl eq_refl)) C F) as (C1 & SO1 & F1).
        assert (B : has_body (INonterm n) ([] ++ i :: rest)) by (apply I; left; reflexivity).
        assert (R : forall x, In x (imerge result f) -> x <> IEmpty -> starts (INonterm n) x).
        { intros x Hx Hn. apply imerge_in in Hx. destruct Hx as [Hx|Hx].
          - apply FS in Hx. destruct Hx as [[-> _]|Hx]; [contradiction|exact Hx].
          - apply F1 in Hx. destruct Hx as [[-> _]|Hx]; [contradiction|]. eapply starts_body; [exact B|constructor|exact Hx]. }
        assert (I2 : forall r, In r rs -> In r (rules n)) by (intros r Hr; apply I; right; exact Hr).
        assert (SO2 : set_ok (imerge result f)) by (apply imerge_ok, SO).
        destruct (icontains f IEmpty) eqn:K.
        + apply icontains_in in K; [|exact SO1]. assert (NI : nullable i) by (destruct (F1 _ K) as [[_ N]|N]; [exact N|exfalso; eapply starts_not_empty, N]).
          destruct (rest_first rec rest c1 (imerge result f)) as [[c2 result2]|] eqn:G; [|discriminate H].
          destruct (rest_first_sound rec (INonterm n) [i] RS rest c1 (imerge result f) c2 result2) as (C2 & SO3 & F3); try eassumption; try reflexivity; try discriminate.
          * apply nullables_one, NI.
          * intros -> x Hx. apply imerge_in in Hx. destruct Hx as [Hx|Hx]; [apply FS, Hx|]. apply F1 in Hx. destruct Hx as [[-> _]|Hx].
            -- left. split; [reflexivity|]. eapply null_body; [exact B|apply nullables_one, NI].
            -- right. eapply starts_body; [exact B|constructor|exact Hx].
          * eapply IH; eassumption.
        + eapply IH; [exact I2|exact C1|exact SO2| |exact H]. intros x Hx. apply imerge_in in Hx. destruct Hx as [Hx|Hx]; [apply FS, Hx|]. right. apply R; [apply imerge_in; auto|].
          intros ->. apply icontains_not in K; [contradiction|exact SO1].
    Qed.
    Lemma head_first_sound rec k rs r : u (IEbnf k rs) -> rec_sound rec -> has_body (IEbnf k rs) r -> forall c ie result c' s, cache_sound c -> set_ok result -> first_sound rules (IEbnf k rs) result ->
      (r = [] -> forall x, In x ie -> x = IEmpty) ->
      head_first rec r c ie result = Some (c', s) -> cache_sound c' /\ set_ok s /\ first_sound rules (IEbnf k rs) s.
    Proof.
      intros UX RS B c ie result c' s C SO FS IE H. unfold head_first in H. destruct r as [|i rest].
      - injection H as <- <-. split; [exact C|]. split; [apply imerge_ok, SO|]. intros x Hx. apply imerge_in in Hx. destruct Hx as [Hx|Hx]; [apply FS, Hx|]. left. split; [apply (IE eq_refl), Hx|].
        eapply null_body; [exact B|constructor].
      - destruct (rec i c) as [[c1 f]|] eqn:F; [|discriminate H]. injection H as <- <-. destruct (RS _ _ _ _ (CU _ _ i UX B (or_introl eq_refl)) C F) as (C1 & SO1 & F1). split; [exact C1|]. split; [apply imerge_ok, SO|].
        intros x Hx. apply imerge_in in Hx. destruct Hx as [Hx|Hx]; [apply FS, Hx|]. apply F1 in Hx. destruct Hx as [[-> N]|Hx].
        + left. split; [reflexivity|]. pose proof (PE k rs _ UX B) as P. destruct rest as [|j rest]; [|contradiction]. eapply null_body; [exact B|apply nullables_one, N].
        + right. eapply (starts_body _ _ [] i rest); [exact B|constructor|exact Hx].
    Qed.
    Lemma alternatives_first_sound rec all : u (IEbnf Alternative all) -> rec_sound rec -> forall rs c result c' s, (forall r, In r rs -> In r all) -> cache_sound c -> set_ok result -> first_sound rules (IEbnf Alternative all) result ->
      alternatives_first rec rs c result = Some (c', s) -> cache_sound c' /\ set_ok s /\ first_sound rules (IEbnf Alternative all) s.
    Proof.
      intros UX RS. induction rs as [|r rs IH]; intros c result c' s I C SO FS H; cbn [alternatives_first] in H; [injection H as <- <-; auto|].
      destruct (head_first rec r c [IEmpty] result) as [[c1 result1]|] eqn:F; [|discriminate H].
      destruct (head_first_sound rec Alternative all r UX RS (I r (or_introl eq_refl)) c [IEmpty] result c1 result1 C SO FS) as (C1 & SO1 & FS1); [|exact F|].
      - intros _ x [<-|[]]. reflexivity.
      - eapply IH; [|exact C1|exact SO1|exact FS1|exact H]. intros r' Hr. apply I. right. exact Hr.
    Qed.
    Lemma item_first_sound rec i c c' s : u i -> rec_sound rec -> cache_sound c -> item_first rules rec i c = Some (c', s) -> cache_sound c' /\ set_ok s /\ first_sound rules i s.
    Proof.
      intros UX RS C H. assert (SELF : symbol i -> first_sound rules i [i]) by (intros S x [<-|[]]; right; apply starts_self, S).
      assert (EM : forall x, In x [IEmpty] -> x = IEmpty) by (intros x [<-|[]]; reflexivity).
      assert (HD : forall k rs ie, i = IEbnf k rs -> k <> Alternative -> (ie = [IEmpty] /\ nullable i) \/ ie = [] ->
        head_first rec (nth 0 rs []) c ie ie = Some (c', s) -> cache_sound c' /\ set_ok s /\ first_sound rules i s).
      { intros k rs ie -> NA IE H0. assert (SI : set_ok ie /\ first_sound rules (IEbnf k rs) ie /\ (forall x, In x ie -> x = IEmpty)).
        { destruct IE as [[-> N]| ->]; (split; [repeat constructor|split; [|auto; intros x []]]); [|intros x []]. intros x Hx. left. split; [apply EM, Hx|exact N]. }
        destruct SI as (SI1 & SI2 & SI3). destruct rs as [|r rs].
        - cbn in H0. injection H0 as <- <-. split; [exact C|]. split; [apply imerge_ok, SI1|]. intros x Hx. apply imerge_in in Hx. destruct Hx as [Hx|Hx]; apply SI2, Hx.
        - cbn [nth] in H0. eapply (head_first_sound rec k (r :: rs) r); try eassumption; [|auto]. destruct k; try contradiction; exists rs; reflexivity. }
      destruct i as [| | |t|n|p l|[] rs]; cbn [item_first] in H; try (injection H as <- <-; split; [exact C|]; split; [apply single_ok|]; try (apply SELF; exact I)).
      - intros x Hx. left. split; [apply EM, Hx|constructor].
      - eapply rules_first_sound; try eassumption; [auto|apply single_ok|apply SELF; exact I].
      - eapply HD; try eassumption; [reflexivity|discriminate|]. left. split; [reflexivity|constructor].
      - eapply HD; try eassumption; [reflexivity|discriminate|]. right. reflexivity.
      - eapply alternatives_first_sound; try eassumption; [auto|constructor|intros x []].
      - eapply HD; try eassumption; [reflexivity|discriminate|]. left. split; [reflexivity|constructor].
    Qed.
    Lemma cache_sound_set c i s : cache_sound c -> set_ok s -> first_sound rules i s -> cache_sound (mset item_ltb i s c).
    Proof.
      intros [S F] SO FS. constructor; [apply (mset_sorted _ item_strict), S|]. intros j t H. apply (mset_in _ item_strict) in H; [|exact S].
      destruct H as [E|[H _]]; [injection E as -> ->; auto|apply F, H].
    Qed.
    Lemma first_is_sound fuel : rec_sound (first rules fuel).
    Proof.
      induction fuel as [|fuel IH]; intros i c c' s UI C H; cbn [first] in H; [discriminate H|]. destruct (mfind item_ltb i c) as [s0|] eqn:F.
      - injection H as <- <-. apply (mfind_in _ item_strict) in F; [|apply C]. split; [exact C|]. eapply (cs_sets _ C), F.
      - destruct (item_first rules (first rules fuel) i (minsert item_ltb i no_items c)) as [[c1 s1]|] eqn:G; [|discriminate H]. injection H as <- <-.
        destruct (item_first_sound (first rules fuel) i (minsert item_ltb i no_items c) c1 s1 UI IH) as (C1 & SO1 & F1); [|exact G|].
        + destruct C as [S FS]. constructor; [apply (minsert_sorted _ item_strict), S|]. intros j t Hj. apply minsert_in in Hj; [|exact S].
          destruct Hj as [Hj|[E _]]; [apply FS, Hj|]. injection E as -> ->. split; [constructor|intros x []].
        + split; [apply cache_sound_set; assumption|auto].
    Qed.
  End Sound.

  (** ** Termination *)
  Definition missing (u : list item) (c : first_cache) : nat := length (filter (fun i => match mfind item_ltb i c with None => true | Some _ => false end) u).
  Definition keys_in (c c' : first_cache) : Prop := msorted item_ltb c' /\ forall i, mfind item_ltb i c <> None -> mfind item_ltb i c' <> None.

  Lemma missing_le u c c' : keys_in c c' -> (missing u c' <= missing u c)%nat.
  Proof.
    intros [_ K]. unfold missing. induction u as [|i u IH]; cbn [filter]; [lia|]. specialize (K i). destruct (mfind item_ltb i c'), (mfind item_ltb i c); cbn [length]; try lia. exfalso. apply K; [discriminate|reflexivity].
  Qed.
  Lemma missing_less u c i : In i u -> msorted item_ltb c -> mfind item_ltb i c = None -> (missing u (minsert item_ltb i no_items c) < missing u c)%nat.
  Proof.
    intros Hi S F. assert (K : keys_in c (minsert item_ltb i no_items c)).
    { split; [apply (minsert_sorted _ item_strict), S|]. intros j Hj. rewrite (mfind_minsert _ item_strict) by exact S.
      destruct (mfind item_ltb j c); [discriminate|contradiction]. }
    induction u as [|j u IH]; [destruct Hi|]. assert (L := missing_le u _ _ K). unfold missing in *. cbn [filter]. destruct Hi as [->|Hi].
    - rewrite F. rewrite (mfind_minsert _ item_strict) by exact S. rewrite F, (st_irrefl _ item_strict). cbn [length]. lia.
    - specialize (IH Hi). destruct K as [_ K]. specialize (K j). destruct (mfind item_ltb j (minsert item_ltb i no_items c)), (mfind item_ltb j c); cbn [length]; try lia. exfalso. apply K; [discriminate|reflexivity].
  Qed.
  Definition rec_ends (u : list item) (m : nat) (rec : item -> first_cache -> option (first_cache * iset)) : Prop :=
    forall i c, In i u -> msorted item_ltb c -> (missing u c < m)%nat -> exists c' s, rec i c = Some (c', s) /\ keys_in c c'.
  Lemma keys_refl c : msorted item_ltb c -> keys_in c c.
  Proof. intros S. split; auto. Qed.
  Lemma keys_trans a b c : keys_in a b -> keys_in b c -> keys_in a c.
  Proof. intros [_ K1] [S K2]. split; auto. Qed.

  Section Ends.
    Context (u : list item) (m : nat) (rec : item -> first_cache -> option (first_cache * iset)) (RE : rec_ends u m rec).
    Lemma rest_first_ends l : forall c result, (forall i, In i l -> In i u) -> msorted item_ltb c -> (missing u c < m)%nat ->
      exists c' s, rest_first rec l c result = Some (c', s) /\ keys_in c c'.
    Proof.
      induction l as [|i l IH]; intros c result I S M; cbn [rest_first]; [eexists _, _; split; [reflexivity|apply keys_refl, S]|].
      destruct (RE i c) as (c1 & f & E & K); [apply I; left; reflexivity|exact S|exact M|]. rewrite E. pose proof (missing_le u _ _ K).
      destruct (icontains f IEmpty); [|eexists _, _; split; [reflexivity|exact K]].
      destruct (IH c1 (imerge (ierase IEmpty result) f)) as (c2 & s & E2 & K2); [intros j Hj; apply I; right; exact Hj|apply K|lia|]. eexists _, _; split; [exact E2|eapply keys_trans; eassumption].
    Qed.
    Lemma rules_first_ends rs : forall c result, (forall r i, In r rs -> In i r -> In i u) -> msorted item_ltb c -> (missing u c < m)%nat ->
      exists c' s, rules_first rec rs c result = Some (c', s) /\ keys_in c c'.
    Proof.
      induction rs as [|[|i l] rs IH]; intros c result I S M; cbn [rules_first]; [eexists _, _; split; [reflexivity|apply keys_refl, S]| |].
      - apply IH; [|exact S|exact M]. intros r j Hr. apply I. right. exact Hr.
      - assert (I2 : forall r i, In r rs -> In i r -> In i u) by (intros r j Hr; apply I; right; exact Hr).
        destruct (RE i c) as (c1 & f & E & K); [apply (I (i :: l)); left; reflexivity|exact S|exact M|]. rewrite E. pose proof (missing_le u _ _ K).
        destruct (icontains f IEmpty).
        + destruct (rest_first_ends l c1 (imerge result f)) as (c2 & s & E2 & K2); [intros j Hj; apply (I (i :: l)); [left; reflexivity|right; exact Hj]|apply K|lia|]. rewrite E2. pose proof (missing_le u _ _ K2).
          destruct (IH c2 s) as (c3 & s3 & E3 & K3); [exact I2|apply K2|lia|]. eexists _, _; split; [exact E3|]. eapply keys_trans; [exact K|eapply keys_trans; eassumption].
        + destruct (IH c1 (imerge result f)) as (c3 & s3 & E3 & K3); [exact I2|apply K|lia|]. eexists _, _; split; [exact E3|eapply keys_trans; eassumption].
    Qed.
    Lemma head_first_ends r c ie result : (forall i, In i r -> In i u) -> msorted item_ltb c -> (missing u c < m)%nat ->
      exists c' s, head_first rec r c ie result = Some (c', s) /\ keys_in c c'.
    Proof.
      intros I S M. unfold head_first. destruct r as [|i r]; [eexists _, _; split; [reflexivity|apply keys_refl, S]|].
      destruct (RE i c) as (c1 & f & E & K); [apply I; left; reflexivity|exact S|exact M|]. rewrite E. eexists _, _; split; [reflexivity|exact K].
    Qed.
    Lemma alternatives_first_ends rs : forall c result, (forall r i, In r rs -> In i r -> In i u) -> msorted item_ltb c -> (missing u c < m)%nat ->
      exists c' s, alternatives_first rec rs c result = Some (c', s) /\ keys_in c c'.
    Proof.
      induction rs as [|r rs IH]; intros c result I S M; cbn [alternatives_first]; [eexists _, _; split; [reflexivity|apply keys_refl, S]|].
      destruct (head_first_ends r c [IEmpty] result) as (c1 & s & E & K); [intros i; apply I; left; reflexivity|exact S|exact M|]. rewrite E. pose proof (missing_le u _ _ K).
      destruct (IH c1 s) as (c2 & s2 & E2 & K2); [intros r' i Hr; apply I; right; exact Hr|apply K|lia|]. eexists _, _; split; [exact E2|eapply keys_trans; eassumption].
    Qed.
    Lemma item_first_ends i c : closed rules (fun i => In i u) -> In i u -> msorted item_ltb c -> (missing u c < m)%nat -> exists c' s, item_first rules rec i c = Some (c', s) /\ keys_in c c'.
    Proof.
      intros CL Hi S M. assert (H0 : forall k rs, i = IEbnf k rs -> k <> Alternative -> forall j, In j (nth 0 rs []) -> In j u).
      { intros k rs -> NA j Hj. destruct rs as [|r rs]; [destruct Hj|]. cbn [nth] in Hj. eapply CL; [exact Hi| |exact Hj]. destruct k; try contradiction; exists rs; reflexivity. }
      destruct i as [| | |t|n|p l|[] rs]; cbn [item_first]; try (eexists _, _; split; [reflexivity|apply keys_refl, S]).
      - apply rules_first_ends; try assumption. intros r j Hr Hj. eapply CL; [exact Hi|exact Hr|exact Hj].
      - apply head_first_ends; try assumption. eapply H0; [reflexivity|discriminate].
      - apply head_first_ends; try assumption. eapply H0; [reflexivity|discriminate].
      - apply alternatives_first_ends; try assumption. intros r j Hr Hj. eapply CL; [exact Hi|exact Hr|exact Hj].
      - apply head_first_ends; try assumption. eapply H0; [reflexivity|discriminate].
    Qed.
  End Ends.
  Lemma first_ends u fuel : closed rules (fun i => In i u) -> rec_ends u fuel (first rules fuel).
  Proof.
    intros CL. induction fuel as [|fuel IH]; intros i c Hi S M; [lia|]. cbn [first]. destruct (mfind item_ltb i c) as [s|] eqn:F; [eexists _, _; split; [reflexivity|apply keys_refl, S]|].
    pose proof (missing_less u c i Hi S F). destruct (item_first_ends u fuel (first rules fuel) IH i (minsert item_ltb i no_items c)) as (c1 & s & E & K); [exact CL|exact Hi|apply (minsert_sorted _ item_strict), S|lia|].
    rewrite E. eexists _, _; split; [reflexivity|]. split; [apply (mset_sorted _ item_strict), K|]. intros j Hj. destruct (item_eqb j i) eqn:EJ.
    - apply item_eqb_spec in EJ. subst j. rewrite (mfind_mset_same _ item_strict) by apply K. discriminate.
    - rewrite (mfind_mset_other _ item_strict); [|apply K|intros ->; rewrite (proj2 (item_eqb_spec i i) eq_refl) in EJ; discriminate EJ].
      apply K. rewrite (mfind_minsert _ item_strict) by exact S. destruct (mfind item_ltb j c); [discriminate|contradiction].
  Qed.

  (** ** Exactness *)
  Section Exact.
    Context (u : item -> Prop) (CU : closed rules u) (PE : plain_ebnf rules u) (NR : no_empty_repeat u) (rank : item -> nat) (LR : left_ranked rules u rank) (EL : empty_rules_last rules u).

    (** Sequences of [X] that start with something else than [X] *)
    Definition noself (X : item) (r : list item) (x : item) : Prop := exists pre y post, r = pre ++ y :: post /\ nullables pre /\ y <> X /\ starts y x.
    (** What a call for [i] made for [X] returns *)
    Definition got (X i : item) (s : iset) : Prop := set_ok s /\ (forall x, In x s -> x <> IEmpty -> starts i x) /\ (In IEmpty s <-> nullable i) /\ (i <> X -> forall x, starts i x -> In x s).
    Definition below (X i : item) : Prop := (rank i < rank X)%nat \/ (i = X /\ ~ nullable X).
    (** The sequences [done] of [X] are in [s]. *)
    Definition covers (X : item) (done : list (list item)) (s : iset) : Prop :=
      set_ok s /\ (forall x, In x s -> x <> IEmpty -> starts X x) /\ (forall r x, In r done -> noself X r x -> In x s).

    Lemma noself_not_empty X r x : noself X r x -> x <> IEmpty.
    Proof. intros (pre & y & post & _ & _ & _ & S) ->. eapply starts_not_empty, S. Qed.
    Lemma noself_cons X i r x : noself X (i :: r) x -> (i <> X /\ starts i x) \/ (nullable i /\ noself X r x).
    Proof.
      intros ([|j pre] & y & post & E & N & Y & S); injection E as -> ->; [auto|]. right. inversion N; subst. split; [assumption|]. exists pre, y, post. auto.
    Qed.
    Lemma covers_first_set X done s : covers X done s -> (forall r, has_body X r -> In r done) -> (symbol X -> In X s) -> (In IEmpty s <-> nullable X) -> first_set rules X s.
    Proof.
      intros (SO & A & B) D SX E x. split.
      - intros H. destruct (item_eqb x IEmpty) eqn:EX; [apply item_eqb_spec in EX; subst x; left; split; [reflexivity|apply E, H]|]. right. apply A; [exact H|]. intros ->. discriminate EX.
      - intros [[-> N]|S]; [apply E, N|]. assert (G : forall Y x, starts Y x -> Y = X -> In x s); [|eapply G; [exact S|reflexivity]]. clear x S. intros Y x S. induction S as [x0 SY|Y pre y post x0 BY NP S IH]; intros EQ; [subst x0; apply SX, SY|subst Y].
        destruct (item_eqb y X) eqn:EY; [apply item_eqb_spec in EY; apply IH, EY|]. eapply B; [apply D; exact BY|]. exists pre, y, post. repeat split; auto. intros ->. rewrite (proj2 (item_eqb_spec X X) eq_refl) in EY. discriminate EY.
    Qed.

    Section Loops.
      Context (CE : first_cache -> Prop) (X : item) (rec : item -> first_cache -> option (first_cache * iset)).
      Hypothesis REC : forall i c c' s, u i -> below X i -> CE c -> rec i c = Some (c', s) -> CE c' /\ got X i s.
      Hypothesis UX : u X.

      Lemma rest_first_exact rest : forall pre c result c' s, has_body X (pre ++ rest) -> nullables pre -> CE c -> covers X [] result -> rest_first rec rest c result = Some (c', s) ->
        CE c' /\ covers X [rest] s /\ (forall x, In x result -> x <> IEmpty -> In x s) /\ match rest with [] => s = result | _ => In IEmpty s <-> nullables rest end.
      Proof.
        induction rest as [|i rest IH]; intros pre c result c' s B NP C (SO & A & _) H; cbn [rest_first] in H.
        - injection H as <- <-. split; [exact C|]. split; [|auto]. split; [exact SO|]. split; [exact A|]. intros r x [<-|[]] (p & y & post & E & _). destruct p; discriminate E.
        - destruct (rec i c) as [[c1 f]|] eqn:F; [|discriminate H].
          destruct (REC i c c1 f) as [C1 (SF & A1 & E1 & B1)]; [eapply CU; [exact UX|exact B|apply in_elt]|eapply LR; eassumption|exact C|exact F|].
          assert (C2 : covers X [] (imerge (ierase IEmpty result) f)).
          { split; [apply imerge_ok, ierase_ok, SO|]. split; [|intros r x []]. intros x Hx Hn. apply imerge_in in Hx. destruct Hx as [Hx|Hx]; [apply ierase_in in Hx; [apply A; tauto|exact SO]|].
            eapply starts_body; [exact B|exact NP|]. apply A1; assumption. }
          assert (K2 : forall x, In x result -> x <> IEmpty -> In x (imerge (ierase IEmpty result) f)) by (intros x Hx Hn; apply imerge_in; left; apply ierase_in; auto).
          assert (NS1 : forall x, i <> X -> starts i x -> In x (imerge (ierase IEmpty result) f)) by (intros x Hi Hx; apply imerge_in; right; apply B1; assumption).
          destruct (icontains f IEmpty) eqn:K.
          + apply icontains_in in K; [|exact SF]. pose proof (proj1 E1 K) as NI.
            assert (B2 : has_body X ((pre ++ [i]) ++ rest)) by (rewrite <- app_assoc; exact B).
            destruct (IH (pre ++ [i]) c1 (imerge (ierase IEmpty result) f) c' s B2) as (C3 & (SO3 & A3 & B3) & K3 & E3); [apply nullables_app; split; [exact NP|apply nullables_one, NI]|exact C1|exact C2|exact H|].
            split; [exact C3|]. split; [|split].
            * split; [exact SO3|]. split; [exact A3|]. intros r x [<-|[]] NS. pose proof (noself_not_empty _ _ _ NS) as Hn. apply noself_cons in NS. destruct NS as [[Hi S]|[_ NS]].
              -- apply K3; [apply NS1; assumption|exact Hn].
              -- eapply B3; [left; reflexivity|exact NS].
            * intros x Hx Hn. apply K3; [apply K2; assumption|exact Hn].
            * split.
              -- intros HE. constructor; [exact NI|]. destruct rest; [constructor|apply E3, HE].
              -- intros N. inversion N; subst. destruct rest; [subst s; apply imerge_in; right; exact K|apply E3; assumption].
          + injection H as <- <-. apply icontains_not in K; [|exact SF]. assert (NI : ~ nullable i) by (intros N; apply K, E1, N). destruct C2 as (SO2 & A2 & _). split; [exact C1|]. split; [|split; [exact K2|]].
            * split; [exact SO2|]. split; [exact A2|]. intros r x [<-|[]] NS. apply noself_cons in NS. destruct NS as [[Hi S]|[N _]]; [apply NS1; assumption|contradiction].
            * split; [intros HE; apply imerge_in in HE; destruct HE as [HE|HE]; [apply ierase_in in HE; [tauto|exact SO]|contradiction]|]. intros N. inversion N; contradiction.
      Qed.

      Lemma covers_more s s' done r x : covers X done s -> set_ok s' -> x = tt -> (forall x, In x s' -> x <> IEmpty -> starts X x) -> (forall x, In x s -> x <> IEmpty -> In x s') -> (forall x, noself X r x -> In x s') -> covers X (done ++ [r]) s'.
      Proof.
        intros (SO & A & B) SO' _ A' K N. split; [exact SO'|]. split; [exact A'|]. intros r' y Hr NS. apply in_app_iff in Hr. destruct Hr as [Hr|[<-|[]]]; [|apply N, NS].
        apply K; [eapply B; eassumption|eapply noself_not_empty, NS].
      Qed.

      Lemma rules_first_exact n : X = INonterm n -> forall rs done c result c' s, rules n = done ++ rs -> CE c -> covers X done result -> In X result ->
        (In IEmpty result <-> exists r, In r done /\ nullables r) ->
        rules_first rec rs c result = Some (c', s) -> CE c' /\ covers X (rules n) s /\ In X s /\ (In IEmpty s <-> exists r, In r (rules n) /\ nullables r).
      Proof.
        intros XN. assert (XE : X <> IEmpty) by (rewrite XN; discriminate).
        induction rs as [|[|i rest] rs IH]; intros done c result c' s R C CV IX E H; cbn [rules_first] in H.
        - injection H as <- <-. rewrite app_nil_r in R. rewrite R. auto.
        - eapply (IH (done ++ [[]])); [rewrite <- app_assoc; exact R|exact C| | | |exact H].
          + destruct CV as (SO & A & B). eapply (covers_more result _ done [] tt); [split; [exact SO|split; [exact A|exact B]]|apply iinsert_ok, SO|reflexivity| | |].
            * intros x Hx Hn. apply iinsert_in in Hx. destruct Hx as [->|Hx]; [contradiction|apply A; assumption].
            * intros x Hx _. apply iinsert_in. auto.
            * intros x (p & y & post & EE & _). destruct p; discriminate EE.
          + apply iinsert_in. auto.
          + split; [intros _; exists []; split; [apply in_app_iff; right; left; reflexivity|constructor]|]. intros _. apply iinsert_in. auto.
        - assert (B : has_body X ([] ++ i :: rest)) by (rewrite XN; cbn; rewrite R; apply in_elt).
          assert (R2 : rules n = (done ++ [i :: rest]) ++ rs) by (rewrite <- app_assoc; exact R).
          destruct (rec i c) as [[c1 f]|] eqn:F; [|discriminate H].
          destruct (REC i c c1 f) as [C1 (SF & A1 & E1 & B1)]; [eapply CU; [exact UX|exact B|apply in_elt]|eapply LR; [exact UX|exact B|constructor]|exact C|exact F|].
          pose proof CV as (SO & A & BV). assert (SO2 : set_ok (imerge result f)) by (apply imerge_ok, SO).
          assert (A2 : forall x, In x (imerge result f) -> x <> IEmpty -> starts X x).
          { intros x Hx Hn. apply imerge_in in Hx. destruct Hx as [Hx|Hx]; [apply A; assumption|]. eapply starts_body; [exact B|constructor|apply A1; assumption]. }
          assert (K2 : forall x, In x result -> In x (imerge result f)) by (intros x Hx; apply imerge_in; auto).
          destruct (icontains f IEmpty) eqn:K.
          + apply icontains_in in K; [|exact SF]. pose proof (proj1 E1 K) as NI. destruct (rest_first rec rest c1 (imerge result f)) as [[c2 s2]|] eqn:G; [|discriminate H].
            destruct (rest_first_exact rest [i] c1 (imerge result f) c2 s2) as (C2 & (SO3 & A3 & B3) & K3 & E3); [exact B|apply nullables_one, NI|exact C1|split; [exact SO2|split; [exact A2|intros r x []]]|exact G|].
            eapply (IH (done ++ [i :: rest])); [exact R2|exact C2| | | |exact H].
            * eapply (covers_more result _ done _ tt); [exact CV|exact SO3|reflexivity|exact A3| |].
              -- intros x Hx Hn. apply K3; [apply K2, Hx|exact Hn].
              -- intros x NS. pose proof (noself_not_empty _ _ _ NS) as Hn. apply noself_cons in NS. destruct NS as [[Hi S]|[_ NS]]; [apply K3; [apply imerge_in; right; apply B1; assumption|exact Hn]|].
                 eapply B3; [left; reflexivity|exact NS].
            * apply K3; [apply K2, IX|exact XE].
            * assert (E4 : In IEmpty s2 <-> nullables rest) by (destruct rest; [split; [constructor|intros _; subst s2; apply imerge_in; right; exact K]|exact E3]). rewrite E4. split.
              -- intros N. exists (i :: rest). split; [apply in_elt|constructor; assumption].
              -- intros (r & Hr & N). apply in_app_iff in Hr. destruct Hr as [Hr|[<-|[]]]; [|inversion N; assumption].
                 apply in_split in Hr. destruct Hr as (l1 & l2 & ->). apply (EL n l1 r l2 i rest rs); [rewrite <- XN; exact UX| |exact N|exact NI]. rewrite R, <- app_assoc. reflexivity.
          + apply icontains_not in K; [|exact SF]. assert (NI : ~ nullable i) by (intros N; apply K, E1, N). eapply (IH (done ++ [i :: rest])); [exact R2|exact C1| | | |exact H].
            * eapply (covers_more result _ done _ tt); [exact CV|exact SO2|reflexivity|exact A2|auto|]. intros x NS. apply noself_cons in NS. destruct NS as [[Hi S]|[N _]]; [|contradiction]. apply imerge_in. right. apply B1; assumption.
            * apply K2, IX.
            * rewrite imerge_in, E. split.
              -- intros [(r & Hr & N)|HE]; [exists r; split; [apply in_app_iff; auto|exact N]|contradiction].
              -- intros (r & Hr & N). apply in_app_iff in Hr. destruct Hr as [Hr|[<-|[]]]; [left; exists r; auto|]. inversion N; contradiction.
      Qed.

      Lemma head_first_exact k rs r ie : X = IEbnf k rs -> has_body X r -> forall done c result c' s, CE c -> covers X done result ->
        (r = [] -> forall x, In x ie <-> x = IEmpty) ->
        head_first rec r c ie result = Some (c', s) -> CE c' /\ covers X (done ++ [r]) s /\ (In IEmpty s <-> In IEmpty result \/ nullables r).
      Proof.
        intros XE B done c result c' s C CV IE H. pose proof CV as (SO & A & BV). unfold head_first in H. destruct r as [|i rest].
        - injection H as <- <-. split; [exact C|]. split.
          + eapply (covers_more result _ done _ tt); [exact CV|apply imerge_ok, SO|reflexivity| | |].
            * intros x Hx Hn. apply imerge_in in Hx. destruct Hx as [Hx|Hx]; [apply A; assumption|]. apply (IE eq_refl) in Hx. contradiction.
            * intros x Hx _. apply imerge_in. auto.
            * intros x (p & y & post & EE & _). destruct p; discriminate EE.
          + rewrite imerge_in, (IE eq_refl). split; [intros [Hx|_]; [auto|right; constructor]|intros [Hx|_]; auto].
        - destruct (rec i c) as [[c1 f]|] eqn:F; [|discriminate H]. injection H as <- <-.
          destruct (REC i c c1 f) as [C1 (SF & A1 & E1 & B1)]; [eapply CU; [exact UX|exact B|left; reflexivity]|eapply (LR X [] i rest); [exact UX|exact B|constructor]|exact C|exact F|].
          assert (P : nullable i -> rest = []) by (intros N; pose proof (PE k rs (i :: rest)) as P; rewrite <- XE in P; specialize (P UX B); destruct rest; [reflexivity|contradiction]).
          split; [exact C1|]. split.
          + eapply (covers_more result _ done _ tt); [exact CV|apply imerge_ok, SO|reflexivity| | |].
            * intros x Hx Hn. apply imerge_in in Hx. destruct Hx as [Hx|Hx]; [apply A; assumption|]. eapply (starts_body _ X [] i rest); [exact B|constructor|apply A1; assumption].
            * intros x Hx _. apply imerge_in. auto.
            * intros x NS. apply imerge_in. right. apply noself_cons in NS. destruct NS as [[Hi S]|[N NS]]; [apply B1; assumption|]. rewrite (P N) in NS. destruct NS as (p & y & post & EE & _). destruct p; discriminate EE.
          + rewrite imerge_in, E1. split.
            * intros [Hx|N]; [auto|]. right. rewrite (P N). apply nullables_one, N.
            * intros [Hx|N]; [auto|]. right. inversion N; assumption.
      Qed.
      Lemma alternatives_first_exact all : X = IEbnf Alternative all -> forall rs done c result c' s, all = done ++ rs -> CE c -> covers X done result ->
        (In IEmpty result <-> exists r, In r done /\ nullables r) ->
        alternatives_first rec rs c result = Some (c', s) -> CE c' /\ covers X all s /\ (In IEmpty s <-> exists r, In r all /\ nullables r).
      Proof.
        intros XE. induction rs as [|r rs IH]; intros done c result c' s R C CV E H; cbn [alternatives_first] in H; [injection H as <- <-; rewrite app_nil_r in R; subst done; auto|].
        destruct (head_first rec r c [IEmpty] result) as [[c1 s1]|] eqn:F; [|discriminate H].
        destruct (head_first_exact Alternative all r [IEmpty] XE) with (done := done) (c := c) (result := result) (c' := c1) (s := s1) as (C1 & CV1 & E1); [|exact C|exact CV| |exact F|].
        - rewrite XE. cbn. rewrite R. apply in_elt.
        - intros _ x. cbn. intuition congruence.
        - eapply (IH (done ++ [r])); [rewrite <- app_assoc; exact R|exact C1|exact CV1| |exact H]. rewrite E1, E. split.
          + intros [(r' & Hr & N)|N]; [exists r'; split; [apply in_app_iff; auto|exact N]|]. exists r. split; [apply in_elt|exact N].
          + intros (r' & Hr & N). apply in_app_iff in Hr. destruct Hr as [Hr|[<-|[]]]; [left; eauto|auto].
      Qed.
      Lemma nullable_ebnf k rs : nullable (IEbnf k rs) -> k = Optional \/ k = RepeatZero \/ exists r, has_body (IEbnf k rs) r /\ nullables r.
      Proof. intros N. inversion N; subst; eauto. Qed.
      Lemma covers_empty s : set_ok s -> (forall x, In x s -> x = IEmpty \/ (x = X /\ symbol X)) -> covers X [] s.
      Proof. intros SO H. split; [exact SO|]. split; [|intros r x []]. intros x Hx Hn. destruct (H x Hx) as [->|[-> S]]; [contradiction|apply starts_self, S]. Qed.

      Lemma item_first_exact c c' s : CE c -> item_first rules rec X c = Some (c', s) -> CE c' /\ set_ok s /\ first_set rules X s.
      Proof.
        intros C H. assert (LEAF : symbol X -> (forall r, ~ has_body X r) -> first_set rules X [X]).
        { intros S NB x. cbn. split; [intros [<-|[]]; right; apply starts_self, S|]. intros [[-> N]|ST].
          - destruct X; try destruct S; inversion N as [| | |? ? B]; subst; exfalso; eapply NB, B.
          - inversion ST as [|? ? ? ? ? B]; subst; [auto|exfalso; eapply NB, B]. }
        assert (HD : forall k rs ie, X = IEbnf k rs -> k <> Alternative -> set_ok ie -> (forall x, In x ie <-> x = IEmpty /\ k <> Repeat) ->
          head_first rec (nth 0 rs []) c ie ie = Some (c', s) -> CE c' /\ set_ok s /\ first_set rules X s).
        { intros k rs ie XE NA SI IE H0. assert (NK : nullable X <-> (k <> Repeat \/ exists r, has_body X r /\ nullables r)).
          { split.
            - intros N. rewrite XE in N. apply nullable_ebnf in N. destruct N as [->|[->|N]]; [left; discriminate|left; discriminate|rewrite XE; auto].
            - rewrite XE. intros [NK|(r & Br & Nr)]; [destruct k; try contradiction; constructor|eapply null_body; eassumption]. }
          destruct rs as [|r rs].
          - destruct k; try contradiction.
            + cbn in H0. injection H0 as <- <-. split; [exact C|]. split; [apply imerge_ok, SI|]. apply (covers_first_set X []).
              * split; [apply imerge_ok, SI|]. split; [|intros r x []]. intros x Hx Hn. apply imerge_in in Hx. rewrite !IE in Hx. intuition contradiction.
              * rewrite XE. intros r (rs' & E'). discriminate E'.
              * rewrite XE. intros [].
              * rewrite NK, imerge_in, !IE. intuition congruence.
            + destruct (NR []) as (i & r & rs' & E'); [rewrite <- XE; exact UX|discriminate E'].
            + cbn in H0. injection H0 as <- <-. split; [exact C|]. split; [apply imerge_ok, SI|]. apply (covers_first_set X []).
              * split; [apply imerge_ok, SI|]. split; [|intros r x []]. intros x Hx Hn. apply imerge_in in Hx. rewrite !IE in Hx. intuition contradiction.
              * rewrite XE. intros r (rs' & E'). discriminate E'.
              * rewrite XE. intros [].
              * rewrite NK, imerge_in, !IE. intuition congruence.
          - cbn [nth] in H0. assert (B : has_body X r) by (rewrite XE; destruct k; try contradiction; exists rs; reflexivity).
            assert (BU : forall r', has_body X r' -> r' = r) by (rewrite XE; intros r' B'; destruct k; try contradiction; destruct B' as [rs' E']; injection E'; auto).
            destruct (head_first_exact k (r :: rs) r ie XE B [] c ie c' s C) as (C1 & CV & E1); [|  |exact H0|].
            + apply covers_empty; [exact SI|]. intros x Hx. apply IE in Hx. tauto.
            + intros ->. destruct k; try contradiction; [intros x; rewrite IE; intuition congruence| |intros x; rewrite IE; intuition congruence].
              destruct (NR ([] :: rs)) as (i & r & rs' & E'); [rewrite <- XE; exact UX|discriminate E'].
            + split; [exact C1|]. split; [apply CV|]. apply (covers_first_set X [r] s CV).
              * intros r' B'. left. symmetry. apply BU, B'.
              * rewrite XE. intros [].
              * rewrite E1, NK, IE. split.
                -- intros [[_ NK2]|N]; [auto|right; exists r; auto].
                -- intros [NK2|(r' & B' & N)]; [auto|]. rewrite (BU _ B') in N. auto. }
        destruct X as [| | |t|n|p l|k rs] eqn:XE; cbn [item_first] in H; try (injection H as <- <-; split; [exact C|]; split; [apply single_ok|]; try (apply LEAF; [exact I|intros r []])).
        - intros x. cbn. split; [intros [<-|[]]; left; split; [reflexivity|constructor]|]. intros [[-> _]|ST]; [auto|]. inversion ST as [? S|? ? ? ? ? B]; subst; [destruct S|destruct B].
        - rewrite <- XE in *. destruct (rules_first_exact n XE (rules n) [] c [X] c' s eq_refl C) as (C1 & CV & IX & E1); [| | |exact H|].
          + apply covers_empty; [apply single_ok|]. intros x [<-|[]]. right. split; [reflexivity|rewrite XE; exact I].
          + left. reflexivity.
          + cbn. split; [intros [E|[]]; rewrite XE in E; discriminate E|intros (r & [] & _)].
          + split; [exact C1|]. split; [apply CV|]. apply (covers_first_set X (rules n) s CV).
            * rewrite XE. auto.
            * auto.
            * rewrite E1, XE. split; [intros (r & Hr & N); eapply null_body; [exact Hr|exact N]|]. intros N. inversion N as [| | |? r B NN]; subst. exists r. auto.
        - destruct k.
          + rewrite <- XE in *. eapply HD; [exact XE|discriminate|apply single_ok| |exact H]. intros x. cbn. intuition congruence.
          + rewrite <- XE in *. eapply HD; [exact XE|discriminate|constructor| |exact H]. intros x. cbn. intuition congruence.
          + rewrite <- XE in *. destruct (alternatives_first_exact rs XE rs [] c [] c' s eq_refl C) as (C1 & CV & E1); [| |exact H|].
            * apply covers_empty; [constructor|intros x []].
            * cbn. split; [intros []|intros (r & [] & _)].
            * split; [exact C1|]. split; [apply CV|]. apply (covers_first_set X rs s CV).
              -- rewrite XE. auto.
              -- rewrite XE. intros [].
              -- rewrite E1, XE. split; [intros (r & Hr & N); eapply null_body; [exact Hr|exact N]|]. intros N. inversion N as [| | |? r B NN]; subst. exists r. auto.
          + rewrite <- XE in *. eapply HD; [exact XE|discriminate|apply single_ok| |exact H]. intros x. cbn. intuition congruence.
      Qed.
    End Loops.

    Record cache_exact (st : list item) (c : first_cache) : Prop := {
      ce_sorted : msorted item_ltb c;
      ce_sets : forall j s, In (j, s) c -> (In j st /\ s = no_items) \/ (set_ok s /\ first_set rules j s);
      ce_stack : forall j, In j st -> In (j, no_items) c }.

    Lemma first_set_unique_empty i s : first_set rules i s -> (In IEmpty s <-> nullable i).
    Proof. intros F. rewrite (F IEmpty). split; [intros [[_ N]|S]; [exact N|exfalso; eapply starts_not_empty, S]|auto]. Qed.

    Lemma first_exact fuel : forall st i c c' s, u i -> (forall j, In j st -> (rank i < rank j)%nat \/ (i = j /\ ~ nullable i)) -> cache_exact st c -> first rules fuel i c = Some (c', s) ->
      cache_exact st c' /\ set_ok s /\ ((In i st /\ s = no_items) \/ first_set rules i s).
    Proof.
      induction fuel as [|fuel IH]; intros st i c c' s UI BL C H; cbn [first] in H; [discriminate H|]. destruct (mfind item_ltb i c) as [s0|] eqn:F.
      - injection H as <- <-. apply (mfind_in _ item_strict) in F; [|apply C]. split; [exact C|]. destruct (ce_sets _ _ C _ _ F) as [[H1 ->]|[H1 H2]]; [split; [constructor|auto]|auto].
      - destruct (item_first rules (first rules fuel) i (minsert item_ltb i no_items c)) as [[c1 s1]|] eqn:G; [|discriminate H]. injection H as <- <-.
        assert (NI : ~ In i st). { intros HI. apply (ce_stack _ _ C) in HI. apply (proj1 (mfind_none _ item_strict _ (ce_sorted _ _ C) _) F) in HI. exact HI. }
        assert (LT : forall j, In j st -> (rank i < rank j)%nat) by (intros j Hj; destruct (BL j Hj) as [L|[-> _]]; [exact L|contradiction]).
        destruct (item_first_exact (cache_exact (i :: st)) i (first rules fuel)) with (c := minsert item_ltb i no_items c) (c' := c1) (s := s1) as (C1 & SO1 & F1); [| | |exact G|].
        + intros y d d' t UY BY D HY. destruct (IH (i :: st) y d d' t UY) as (D1 & SO & FY); [|exact D|exact HY|].
          * intros j [<-|Hj]; [destruct BY as [L|[-> N]]; auto|]. specialize (LT j Hj). destruct BY as [L|[-> N]]; left; lia.
          * split; [exact D1|]. split; [exact SO|]. destruct FY as [[HS ->]|FY].
            -- assert (YI : y = i /\ ~ nullable y).
               { destruct HS as [<-|HS]; [split; [reflexivity|]; destruct BY as [L|[_ N]]; [lia|exact N]|]. exfalso. specialize (LT y HS). destruct BY as [L|[-> _]]; [lia|contradiction]. }
               destruct YI as [-> N]. split; [intros x []|]. split; [split; [intros []|contradiction]|]. intros Hn. contradiction.
            -- split; [|split; [apply first_set_unique_empty, FY|]].
               ++ intros x Hx Hn. apply FY in Hx. destruct Hx as [[-> _]|Hx]; [contradiction|exact Hx].
               ++ intros _ x Hx. apply FY. auto.
        + exact UI.
        + destruct C as [S CS CT]. constructor; [apply (minsert_sorted _ item_strict), S| |].
          * intros j t Hj. apply minsert_in in Hj; [|exact S]. destruct Hj as [Hj|[E _]]; [destruct (CS _ _ Hj) as [[H1 H2]|H1]; [left; split; [right; exact H1|exact H2]|auto]|].
            injection E as -> ->. left. split; [left; reflexivity|reflexivity].
          * intros j [<-|Hj]; (apply minsert_in; [exact S|]); [right; split; [reflexivity|exact F]|left; apply CT, Hj].
        + split; [|auto]. destruct C1 as [S CS CT]. constructor; [apply (mset_sorted _ item_strict), S| |].
          * intros j t Hj. apply (mset_in _ item_strict) in Hj; [|exact S]. cbn [fst] in Hj. destruct Hj as [E|[Hj Hn]]; [injection E as -> ->; auto|].
            destruct (CS _ _ Hj) as [[[<-|H1] H2]|H1]; [contradiction|auto|auto].
          * intros j Hj. apply (mset_in _ item_strict); [exact S|]. right. split; [apply CT; right; exact Hj|]. cbn. intros ->. contradiction.
    Qed.
    Lemma earlier_exact c : earlier rules u c -> cache_exact [] c.
    Proof.
      induction 1 as [|c fuel i c' s E IH U H]; [constructor; [constructor|intros j s []|intros j []]|]. eapply (first_exact fuel [] i c c' s); [exact U|intros j []|exact IH|exact H].
    Qed.
    Lemma earlier_first_exact c fuel i c' s : earlier rules u c -> u i -> first rules fuel i c = Some (c', s) -> cache_exact [] c' /\ set_ok s /\ first_set rules i s.
    Proof. intros E U H. destruct (first_exact fuel [] i c c' s U) as (A & B & [[[] _]|C]); [intros j []|apply earlier_exact, E|exact H|auto]. Qed.

    Lemma first_for_items_exact fuel l : forall pre c result c' s, (forall i, In i (pre ++ l) -> u i) -> nullables pre -> cache_exact [] c -> set_ok result ->
      (forall x, x <> IEmpty -> In x result <-> sequence_starts rules pre x) -> (l = [] -> pre <> []) ->
      first_for_items rules fuel l c result = Some (c', s) -> cache_exact [] c' /\ set_ok s /\ first_set_of rules (pre ++ l) s.
    Proof.
      induction l as [|i l IH]; intros pre c result c' s UL NP C SO R NE H; cbn [first_for_items] in H.
      - injection H as <- <-. split; [exact C|]. split; [apply iinsert_ok, SO|]. rewrite app_nil_r. intros x. rewrite iinsert_in. destruct (item_eqb x IEmpty) eqn:EX.
        + apply item_eqb_spec in EX. subst x. split; auto.
        + assert (Hn : x <> IEmpty) by (intros ->; discriminate EX). rewrite (R x Hn). intuition congruence.
      - destruct (first rules fuel i c) as [[c1 f]|] eqn:F; [|discriminate H]. destruct (first_exact fuel [] i c c1 f) as (C1 & SF & [[[] _]|FS]); [apply UL, in_elt|intros j []|exact C|exact F|].
        assert (SO2 : set_ok (imerge (ierase IEmpty result) f)) by (apply imerge_ok, ierase_ok, SO).
        assert (R2 : forall x, x <> IEmpty -> In x (imerge (ierase IEmpty result) f) <-> sequence_starts rules (pre ++ [i]) x).
        { intros x Hn. rewrite imerge_in, ierase_in by exact SO. rewrite (R x Hn), (FS x). split.
          - intros [[(p & y & q & -> & N & S) _]|[[E _]|S]]; [exists p, y, (q ++ [i]); rewrite <- app_assoc; auto|contradiction|]. exists pre, i, []. auto.
          - intros (p & y & q & E & N & S). destruct q as [|z q _] using rev_ind; [apply app_inj_tail in E; destruct E as [-> ->]; auto|].
            left. split; [|exact Hn]. assert (E' : pre ++ [i] = (p ++ y :: q) ++ [z]) by (rewrite E, <- app_assoc; reflexivity). apply app_inj_tail in E'. destruct E' as [-> _]. exists p, y, q. auto. }
        assert (EM : In IEmpty (imerge (ierase IEmpty result) f) <-> nullable i).
        { rewrite imerge_in, ierase_in by exact SO. rewrite (first_set_unique_empty _ _ FS). tauto. }
        destruct (icontains (imerge (ierase IEmpty result) f) IEmpty) eqn:K.
        + apply icontains_in in K; [|exact SO2]. apply EM in K. destruct (IH (pre ++ [i]) c1 (imerge (ierase IEmpty result) f) c' s) as (A & B & D); [| | | | | |exact H|].
          * rewrite <- app_assoc. exact UL.
          * apply nullables_app. split; [exact NP|apply nullables_one, K].
          * exact C1.
          * exact SO2.
          * exact R2.
          * intros _. destruct pre; discriminate.
          * rewrite <- app_assoc in D. auto.
        + apply icontains_not in K; [|exact SO2]. injection H as <- <-. split; [exact C1|]. split; [exact SO2|]. intros x. assert (NI : ~ nullable i) by (rewrite <- EM; exact K).
          assert (NN : ~ nullables (pre ++ i :: l)) by (intros N; apply nullables_app in N; destruct N as [_ N]; inversion N; contradiction). destruct (item_eqb x IEmpty) eqn:EX.
          * apply item_eqb_spec in EX. subst x. split; [contradiction|]. intros [[_ N]|(p & y & q & _ & _ & S)]; [contradiction|exfalso; eapply starts_not_empty, S].
          * assert (Hn : x <> IEmpty) by (intros ->; discriminate EX). rewrite (R2 x Hn). split.
            -- intros (p & y & q & E & N & S). right. exists p, y, (q ++ l). split; [|auto]. change (i :: l) with ([i] ++ l). rewrite app_assoc, E, <- app_assoc. reflexivity.
            -- intros [[-> _]|(p & y & q & E & N & S)]; [contradiction|]. exists p, y.
               assert (LE : exists q', pre ++ [i] = p ++ y :: q').
               { clear -E N NI. revert p E N. induction pre as [|a pre IHp]; intros [|b p] E N; cbn [app] in *.
                 - injection E as -> ->. exists []. reflexivity.
                 - injection E as -> E. inversion N; contradiction.
                 - injection E as -> E. exists (pre ++ [i]). reflexivity.
                 - injection E as -> E. inversion N; subst. destruct (IHp p E) as [q' Eq]; [assumption|]. exists q'. rewrite Eq. reflexivity. }
               destruct LE as [q' Eq]. exists q'. auto.
    Qed.
  End Exact.
End Grammar.
