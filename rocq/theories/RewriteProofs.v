(** Proofs about the rewriters of parser actions. *)
From Verif Require Import Base OrdMap GrammarModel GrammarProofs FirstModel FirstProofs LrItemModel ActionModel ActionProofs TableModel RewriteModel RewriteSpec.
Local Open Scope Z_scope.

Notation asorted := (ssorted action_ltb).
Lemma filter_sorted (f : action -> bool) l : asorted l -> asorted (filter f l).
Proof.
  induction l as [|a l IH]; intros S; [exact S|]. apply ssorted_cons in S. destruct S as [S LT]. cbn [filter]. destruct (f a); [|apply IH, S]. apply ssorted_cons. split; [apply IH, S|]. intros b B. apply filter_In in B. apply LT, B.
Qed.
Lemma aerase_in a b s : asorted s -> In a (aerase b s) <-> In a s /\ a <> b.
Proof. intros S. apply (serase_in _ action_strict _ S). Qed.
Lemma aerase_sorted b s : asorted s -> asorted (aerase b s).
Proof. intros S. apply (serase_sorted _ action_strict _ S). Qed.
Lemma terminal_spec i : is_terminal i = true <-> exists s, i = ITerm s.
Proof. destruct i; cbn; split; try discriminate; try (intros (s & E); discriminate E). intros _. eexists. reflexivity. reflexivity. Qed.
Lemma shift_spec a : is_shift a = true <-> a_type a = Shift.
Proof. unfold is_shift. destruct (a_type a); split; congruence. Qed.
Lemma reduce_spec a : is_reduce a = true <-> a_type a = Reduce.
Proof. unfold is_reduce. destruct (a_type a); split; congruence. Qed.

(** The groups of actions *)
Section Group.
  Context (keep : action -> bool).
  Definition for_item (i : item) (acts : action_set) : list action := filter (fun a => keep a && item_eqb (a_item a) i) acts.
  Lemma for_item_in i acts a : In a (for_item i acts) <-> In a acts /\ keep a = true /\ a_item a = i.
  Proof. unfold for_item. rewrite filter_In, andb_true_iff, item_eqb_spec. reflexivity. Qed.
  Lemma group_spec acts : msorted item_ltb (group keep acts) /\ forall i l, In (i, l) (group keep acts) <-> l = for_item i acts /\ l <> [].
  Proof.
    induction acts as [|a l (IS & IH)] using rev_ind.
    - cbn. split; [constructor|]. intros i l. split; [tauto|]. intros [-> N]. congruence.
    - assert (FA : forall i, for_item i (l ++ [a]) = for_item i l ++ (if keep a && item_eqb (a_item a) i then [a] else [])).
      { intros i. unfold for_item. rewrite filter_app. reflexivity. }
      unfold group. rewrite fold_left_app. cbn [fold_left]. fold (group keep l). set (g := group keep l) in *.
      destruct (keep a) eqn:K; cbn [andb] in FA.
      + split; [apply (mset_sorted _ item_strict _ IS)|]. intros i ls. rewrite (mset_in _ item_strict _ IS). assert (ME : match mfind item_ltb (a_item a) g with Some l0 => l0 | None => [] end = for_item (a_item a) l).
        { destruct (mfind item_ltb (a_item a) g) as [l0|] eqn:F.
          - apply (mfind_in _ item_strict _ IS) in F. apply IH in F. apply F.
          - pose proof (proj1 (mfind_none _ item_strict _ IS _) F) as N. destruct (for_item (a_item a) l) eqn:E; [reflexivity|]. exfalso. eapply N. apply IH. split; [symmetry; exact E|congruence]. }
        rewrite ME. rewrite FA. split.
        * intros [E|[I NE]].
          -- injection E as -> ->. replace (item_eqb (a_item a) (a_item a)) with true by (symmetry; apply item_eqb_spec; reflexivity). split; [reflexivity|]. destruct (for_item _ _); discriminate.
          -- apply IH in I. destruct I as [-> N]. cbn [fst] in NE. destruct (item_eqb (a_item a) i) eqn:EI; [apply item_eqb_spec in EI; congruence|]. rewrite app_nil_r. split; [reflexivity|exact N].
        * intros [-> N]. destruct (item_eqb (a_item a) i) eqn:EI; [left; apply item_eqb_spec in EI; subst i; reflexivity|]. right. rewrite app_nil_r in N |- *. split; [apply IH; auto|]. cbn. intros ->. assert (X : item_eqb (a_item a) (a_item a) = true) by (apply item_eqb_spec; reflexivity). congruence.
      + split; [exact IS|]. intros i ls. rewrite FA, app_nil_r. apply IH.
  Qed.
End Group.
(** What is done for each item affects the actions for that item only. *)
Section Groups.
  Context (f : action_set -> item * list action -> action_set) (D N : item -> list action -> action -> Prop).
  Context (DI : forall i l a, D i l a -> a_item a = i) (NI : forall i l a, N i l a -> a_item a = i).
  Context (FS : forall s g, asorted s -> asorted (f s g)).
  Lemma fold_groups g : (forall s i l a, In (i, l) g -> asorted s -> In a (f s (i, l)) <-> (In a s /\ ~ D i l a) \/ N i l a) -> msorted item_ltb g -> forall s, asorted s ->
    asorted (fold_left f g s) /\ forall a, In a (fold_left f g s) <-> (In a s /\ ~ exists i l, In (i, l) g /\ D i l a) \/ exists i l, In (i, l) g /\ N i l a.
  Proof.
    induction g as [|[i l] g IH]; intros FI MS s SS.
    - cbn. split; [exact SS|]. intros a. split; [intros I; left; split; [exact I|]; intros (? & ? & [] & _)|]. intros [[I _]|(? & ? & [] & _)]; exact I.
    - cbn [fold_left]. apply msorted_cons in MS. destruct MS as [MS LT]. destruct (IH (fun s i l a I => FI s i l a (or_intror I)) MS (f s (i, l)) (FS _ _ SS)) as [S1 I1]. split; [exact S1|]. intros a. rewrite I1, (FI s i l a (or_introl eq_refl) SS).
      assert (NE : forall l', In (i, l') g -> False) by (intros l' I; apply LT in I; cbn in I; rewrite (st_irrefl _ item_strict) in I; discriminate I). split.
      + intros [[[[I ND]|NN] NX]|(i' & l' & I & NN)].
        * left. split; [exact I|]. intros (i' & l' & [E|I'] & DD); [injection E as <- <-; contradiction|]. apply NX. eauto.
        * right. exists i, l. split; [left; reflexivity|exact NN].
        * right. exists i', l'. split; [right; exact I|exact NN].
      + intros [[I NX]|(i' & l' & [E|I] & NN)].
        * left. split; [left; split; [exact I|]; intros DD; apply NX; exists i, l; split; [left; reflexivity|exact DD]|]. intros (i' & l' & I' & DD). apply NX. exists i', l'. split; [right; exact I'|exact DD].
        * injection E as <- <-. left. split; [right; exact NN|]. intros (i' & l' & I' & DD). apply DI in DD. apply NI in NN. subst i'. rewrite NN in I'. exact (NE _ I').
        * right. exists i', l'. auto.
  Qed.
End Groups.
Definition nonempty_group keep acts i l : In (i, l) (group keep acts) -> l = for_item keep i acts := fun I => proj1 (proj1 (proj2 (group_spec keep acts) i l) I).

(** ** Ignored symbols *)
Section Ignored.
  Context (ignored : iset) (OK : set_ok ignored).
  Lemma ignored_copies acts : forall new used new' used', asorted new -> set_ok used -> fold_left (ignored_copy ignored) acts (new, used) = (new', used') ->
    asorted new' /\ set_ok used' /\
    (forall a, In a new' <-> In a new \/ (In a acts /\ ~ (a_type a = Reduce /\ In (a_item a) ignored)) \/ exists b, In b acts /\ a_type b = Reduce /\ In (a_item b) ignored /\ weakened b a) /\
    (forall i, In i used' <-> In i used \/ exists b, In b acts /\ a_item b = i /\ (a_type b = Ignore \/ (a_type b = Shift /\ In i ignored))).
  Proof.
    induction acts as [|a acts IH]; intros new used new' used' SN SU EF.
    - cbn in EF. injection EF as <- <-. split; [exact SN|]. split; [exact SU|]. split; intros x; (split; [auto|]).
      + intros [I|[[[] _]|(b & [] & _)]]. exact I.
      + intros [I|(b & [] & _)]. exact I.
    - cbn [fold_left] in EF. destruct (ignored_copy ignored (new, used) a) as [new1 used1] eqn:E.
      assert (X : asorted new1 /\ set_ok used1 /\ (forall x, In x new1 <-> In x new \/ (x = a /\ ~ (a_type a = Reduce /\ In (a_item a) ignored)) \/ (a_type a = Reduce /\ In (a_item a) ignored /\ weakened a x)) /\
        (forall i, In i used1 <-> In i used \/ (a_item a = i /\ (a_type a = Ignore \/ (a_type a = Shift /\ In i ignored))))).
      { unfold ignored_copy in E. pose proof (icontains_in ignored (a_item a) OK) as C. destruct (a_type a) eqn:T; try (injection E as <- <-; split; [apply ainsert_sorted, SN|]; split; [exact SU|]; split; intros x; [rewrite ainsert_in; split; [intros [-> |I]; [right; left; split; [reflexivity|intros [X _]; discriminate X]|auto]|intros [I|[[-> _]|(X & _)]]; [auto|auto|discriminate X]]|split; [auto|intros [I|(_ & [X|[X _]])]; [exact I|discriminate X|discriminate X]]]).
        - injection E as <- <-. split; [apply ainsert_sorted, SN|]. split; [destruct (icontains _ _); [apply iinsert_ok|]; exact SU|]. split; intros x.
          + rewrite ainsert_in. split; [intros [-> |I]; [right; left; split; [reflexivity|intros [X _]; discriminate X]|auto]|intros [I|[[-> _]|(X & _)]]; [auto|auto|discriminate X]].
          + destruct (icontains ignored (a_item a)) eqn:CI.
            * rewrite iinsert_in. split; [intros [-> |I]; [right; split; [reflexivity|right; split; [reflexivity|apply C; reflexivity]]|auto]|intros [I|(<- & _)]; auto].
            * split; [auto|]. intros [I|(<- & [X|[_ X]])]; [exact I|discriminate X|]. apply C in X. discriminate X.
        - injection E as <- <-. split; [apply ainsert_sorted, SN|]. split; [apply iinsert_ok, SU|]. split; intros x.
          + rewrite ainsert_in. split; [intros [-> |I]; [right; left; split; [reflexivity|intros [X _]; discriminate X]|auto]|intros [I|[[-> _]|(X & _)]]; [auto|auto|discriminate X]].
          + rewrite iinsert_in. split; [intros [-> |I]; auto|intros [I|(<- & _)]; auto].
        - injection E as <- <-. split; [apply ainsert_sorted, SN|]. split; [exact SU|]. split; intros x.
          + rewrite ainsert_in. destruct (icontains ignored (a_item a)) eqn:CI.
            * assert (CI' := proj1 C eq_refl). split; [intros [-> |I]; [right; right; repeat split; auto|auto]|intros [I|[[_ X]|(_ & _ & ->)]]; [auto|exfalso; apply X; auto|left; reflexivity]].
            * split; [intros [-> |I]; [right; left; split; [reflexivity|intros [_ X]; apply C in X; discriminate X]|auto]|intros [I|[[-> _]|(_ & X & _)]]; [auto|auto|apply C in X; discriminate X]].
          + split; [auto|intros [I|(_ & [X|[X _]])]; [exact I|discriminate X|discriminate X]]. }
      destruct X as (S1 & U1 & N1 & I1). destruct (IH new1 used1 new' used' S1 U1 EF) as (S2 & U2 & N2 & I2). split; [exact S2|]. split; [exact U2|]. split; intros x.
      + rewrite N2, N1. split.
        * intros [[I|[[-> NI]|(T & II & W)]]|[[I NI]|(b & B & R)]]; [auto|right; left; split; [left; reflexivity|exact NI]|right; right; exists a; split; [left; reflexivity|auto]|right; left; split; [right; exact I|exact NI]|right; right; exists b; split; [right; exact B|exact R]].
        * intros [I|[[[<- |I] NI]|(b & [<- |B] & R)]]; [auto|left; right; left; auto|right; left; auto|left; right; right; exact R|right; right; exists b; auto].
      + rewrite I2, I1. split.
        * intros [[I|(E1 & R)]|(b & B & R)]; [auto|right; exists a; split; [left; reflexivity|auto]|right; exists b; split; [right; exact B|exact R]].
        * intros [I|(b & [<- |B] & R)]; [auto|left; right; exact R|right; exists b; auto].
  Qed.
  Lemma ignored_news q used : set_ok used -> forall l new, asorted new ->
    let s := fold_left (fun new i => if icontains used i then new else ainsert (mkAction Ignore i q no_rule) new) l new in
    asorted s /\ forall a, In a s <-> In a new \/ exists i, In i l /\ ~ In i used /\ a = mkAction Ignore i q no_rule.
  Proof.
    intros SU. induction l as [|i l IH]; intros new SN; cbn [fold_left]; [cbn zeta; split; [exact SN|]; intros a; split; [auto|intros [I|(i & [] & _)]; exact I]|].
    cbn zeta. destruct (icontains used i) eqn:C.
    - destruct (IH new SN) as [S I]. split; [exact S|]. intros a. rewrite I. apply (icontains_in _ _ SU) in C. split; [intros [X|(j & J & R)]; [auto|right; exists j; split; [right; exact J|exact R]]|intros [X|(j & [<- |J] & NJ & R)]; [auto|contradiction|right; exists j; auto]].
    - destruct (IH (ainsert (mkAction Ignore i q no_rule) new) (ainsert_sorted _ _ SN)) as [S I]. split; [exact S|]. intros a. rewrite I, ainsert_in. apply (icontains_not _ _ SU) in C.
      split; [intros [[-> |X]|(j & J & R)]; [right; exists i; split; [left; reflexivity|auto]|auto|right; exists j; split; [right; exact J|exact R]]|intros [X|(j & [<- |J] & NJ & R)]; [auto|left; left; exact R|right; exists j; auto]].
  Qed.
  Lemma ignored_exact q acts : asorted (ignored_rewrite ignored q acts) /\ forall a, In a (ignored_rewrite ignored q acts) <-> with_ignored ignored q acts a.
  Proof.
    unfold ignored_rewrite. destruct (fold_left (ignored_copy ignored) acts ([], [])) as [new used] eqn:EF. destruct (ignored_copies acts [] [] new used (SSorted_nil _) (SSorted_nil _) EF) as (SN & SU & N & U). destruct (ignored_news q used SU ignored new SN) as [S I]. split; [exact S|]. intros a. rewrite I, N. split.
    - intros [[[]|[[A B]|(b & B1 & B2 & B3 & B4)]]|(i & II & NU & ->)]; [apply ignored_kept; assumption|eapply ignored_weaker; eassumption|]. apply (ignored_new _ _ _ _ i); [exact II| |reflexivity]. intros b B E. split; intros T; apply NU, U; right; exists b; auto.
    - intros [A B|b B1 B2 B3 B4|i II NB ->]; [auto|left; right; right; exists b; auto|]. right. exists i. split; [exact II|]. split; [|reflexivity]. intros X. apply U in X. destruct X as [[]|(b & B & E & R)]. destruct (NB b B E) as [N1 N2]. destruct R as [R|[R _]]; contradiction.
  Qed.
End Ignored.

(** ** Weak symbols *)
Lemma declared_ok w D : declared w D -> msorted item_ltb (w_weak_for w) /\ set_ok (w_weak w) /\ (forall s, set_ok (weak_for_strong s w)) /\
  (forall s i, In i (weak_for_strong s w) -> exists x, i = ITerm x) /\ (forall s x, In (ITerm x) (weak_for_strong (ITerm s) w) <-> D s x) /\ (forall i, In i (w_weak w) <-> exists s, In i (weak_for_strong (ITerm s) w)).
Proof.
  induction 1 as [|w D s ws DC (M & OW & OS & T & I & U) SW TW].
  - repeat split; cbn; try constructor; try contradiction. intros (s & []).
  - assert (E : forall s', weak_for_strong s' (weak_add (ITerm s) ws w) = if item_eqb s' (ITerm s) then imerge (weak_for_strong (ITerm s) w) ws else weak_for_strong s' w).
    { intros s'. unfold weak_add at 1. unfold weak_for_strong at 1. cbn [w_weak_for]. destruct (item_eqb s' (ITerm s)) eqn:C; [apply item_eqb_spec in C; subst s'; rewrite (mfind_mset_same _ item_strict _ M); reflexivity|]. assert (s' <> ITerm s) by (intros ->; assert (X : item_eqb (ITerm s) (ITerm s) = true) by (apply item_eqb_spec; reflexivity); congruence). rewrite (mfind_mset_other _ item_strict _ M) by assumption. reflexivity. }
    assert (IN : forall s' i, In i (weak_for_strong s' (weak_add (ITerm s) ws w)) <-> In i (weak_for_strong s' w) \/ s' = ITerm s /\ In i ws).
    { intros s' i. rewrite E. destruct (item_eqb s' (ITerm s)) eqn:C; [apply item_eqb_spec in C; subst s'; rewrite imerge_in; tauto|]. split; [auto|]. intros [X|[-> _]]; [exact X|]. assert (X : item_eqb (ITerm s) (ITerm s) = true) by (apply item_eqb_spec; reflexivity). congruence. }
    split; [apply (mset_sorted _ item_strict _ M)|]. split; [apply imerge_ok, OW|]. split; [intros s'; rewrite E; destruct (item_eqb s' (ITerm s)); [apply imerge_ok|]; apply OS|]. split; [intros s' i; rewrite IN; intros [X|[_ X]]; [eapply T; exact X|apply TW, X]|].
    split; [intros s' x; rewrite IN, I; split; (intros [X|[X Y]]; [auto|right; split; [congruence|exact Y]])|]. intros i. cbn [weak_add w_weak]. rewrite imerge_in, U. split.
    + intros [(s' & X)|X]; [exists s'|exists s]; apply IN; auto.
    + intros (s' & X). apply IN in X. destruct X as [X|[_ X]]; [left; exists s'; exact X|auto].
Qed.
Section Weak.
  Context (w : weak_syms) (OW : set_ok (w_weak w)) (OS : forall s, set_ok (weak_for_strong s w)).
  Definition usable (a : action) : Prop := a_type a <> Guard.
  Definition weak_action (a : action) : Prop := on_terminal a = true /\ In (a_item a) (w_weak w) /\ a_type a <> Guard.
  Lemma weak_firsts acts : forall new used weak strong new' used' weak' strong', asorted new -> msorted Z.ltb used -> fold_left (weak_first w) acts (new, used, weak, strong) = (new', used', weak', strong') ->
    asorted new' /\ msorted Z.ltb used' /\
    (forall a, In a new' <-> In a new \/ (In a acts /\ ~ weak_action a)) /\
    (forall a, In a weak' <-> In a weak \/ (In a acts /\ weak_action a)) /\
    (forall a, In a strong' <-> In a strong \/ (In a acts /\ on_terminal a = true /\ ~ In (a_item a) (w_weak w))) /\
    (forall n, match mfind Z.ltb n used' with Some c => c | None => 0 end - Z.of_nat (length (filter (fun a => symbol_number (a_item a) =? n) weak')) = match mfind Z.ltb n used with Some c => c | None => 0 end - Z.of_nat (length (filter (fun a => symbol_number (a_item a) =? n) weak))) /\
    (forall n, mfind Z.ltb n used' <> None <-> mfind Z.ltb n used <> None \/ exists a, In a acts /\ weak_action a /\ symbol_number (a_item a) = n).
  Proof.
    induction acts as [|a acts IH]; intros new used weak strong new' used' weak' strong' SN SU EF.
    - cbn in EF. injection EF as <- <- <- <-. cbn. split; [exact SN|]. split; [exact SU|]. split; [intros x; tauto|]. split; [intros x; tauto|]. split; [intros x; tauto|]. split; [reflexivity|]. intros n. split; [auto|]. intros [X|(? & [] & _)]. exact X.
    - cbn [fold_left] in EF. destruct (weak_first w (new, used, weak, strong) a) as [[[new1 used1] weak1] strong1] eqn:E.
      assert (X : asorted new1 /\ msorted Z.ltb used1 /\ (forall x, In x new1 <-> In x new \/ (x = a /\ ~ weak_action a)) /\ (forall x, In x weak1 <-> In x weak \/ (x = a /\ weak_action a)) /\
        (forall x, In x strong1 <-> In x strong \/ (x = a /\ on_terminal a = true /\ ~ In (a_item a) (w_weak w))) /\
        (forall n, match mfind Z.ltb n used1 with Some c => c | None => 0 end - Z.of_nat (length (filter (fun a => symbol_number (a_item a) =? n) weak1)) = match mfind Z.ltb n used with Some c => c | None => 0 end - Z.of_nat (length (filter (fun a => symbol_number (a_item a) =? n) weak))) /\
        (forall n, mfind Z.ltb n used1 <> None <-> mfind Z.ltb n used <> None \/ (weak_action a /\ symbol_number (a_item a) = n))).
      { unfold weak_first in E. pose proof (icontains_in (w_weak w) (a_item a) OW) as C. unfold weak_action. destruct (on_terminal a) eqn:OT; cbn [negb] in E.
        2:{ injection E as <- <- <- <-. assert (NF : false = true -> False) by discriminate. split; [apply ainsert_sorted, SN|]. split; [exact SU|]. split; [intros x; rewrite ainsert_in; tauto|]. split; [intros x; tauto|]. split; [intros x; tauto|]. split; [reflexivity|]. intros n; tauto. }
        destruct (icontains (w_weak w) (a_item a)) eqn:CI; cbn [negb] in E.
        2:{ injection E as <- <- <- <-. assert (NI : ~ In (a_item a) (w_weak w)) by (intros X; apply C in X; discriminate X). split; [apply ainsert_sorted, SN|]. split; [exact SU|]. split; [intros x; rewrite ainsert_in; intuition|]. split; [intros x; intuition|]. split; [intros x; cbn; intuition|]. split; [reflexivity|]. intuition. }
        assert (CI' := proj1 C eq_refl). destruct (a_type a) eqn:T; try (injection E as <- <- <- <-; split; [exact SN|]; split; [apply (mset_sorted _ Zltb_strict _ SU)|]; split; [intros x; intuition congruence|]; split; [intros x; cbn; intuition congruence|]; split; [intros x; intuition congruence|]; split; intros n;
          [cbn [filter]; destruct (Z.eqb_spec (symbol_number (a_item a)) n) as [<- |NE]; [rewrite (mfind_mset_same _ Zltb_strict _ SU); cbn [length]; lia|rewrite (mfind_mset_other _ Zltb_strict _ SU) by congruence; reflexivity]
          |destruct (Z.eq_dec n (symbol_number (a_item a))) as [-> |NE]; [rewrite (mfind_mset_same _ Zltb_strict _ SU); split; [intros _; right; repeat split; auto; discriminate|discriminate]|rewrite (mfind_mset_other _ Zltb_strict _ SU) by congruence; intuition congruence]]).
        injection E as <- <- <- <-. split; [apply ainsert_sorted, SN|]. split; [exact SU|]. split; [intros x; rewrite ainsert_in; intuition|]. split; [intros x; intuition congruence|]. split; [intros x; intuition|]. split; [reflexivity|]. intuition congruence. }
      destruct X as (S1 & U1 & N1 & W1 & ST1 & C1 & D1). destruct (IH _ _ _ _ _ _ _ _ S1 U1 EF) as (S2 & U2 & N2 & W2 & ST2 & C2 & D2). split; [exact S2|]. split; [exact U2|]. split; [|split; [|split; [|split]]].
      + intros x. rewrite N2, N1. cbn [In]. intuition (subst; auto).
      + intros x. rewrite W2, W1. cbn [In]. intuition (subst; auto).
      + intros x. rewrite ST2, ST1. cbn [In]. intuition (subst; auto).
      + intros n. rewrite C2, C1. reflexivity.
      + intros n. rewrite D2, D1. cbn [In]. split; [intros [[X|X]|(b & B & R)]; [auto|right; exists a; auto|right; exists b; auto]|intros [X|(b & [<- |B] & R)]; [auto|auto|right; exists b; auto]].
  Qed.
  (** No count gets below zero, so every symbol stays in the map. *)
  Lemma weak_seconds weak : forall new used, asorted new -> msorted Z.ltb used -> (forall n, Z.of_nat (length (filter (fun a => symbol_number (a_item a) =? n) weak)) <= match mfind Z.ltb n used with Some c => c | None => 0 end) ->
    forall new' used', fold_left weak_second weak (new, used) = (new', used') ->
    asorted new' /\ (forall n, mfind Z.ltb n used' <> None <-> mfind Z.ltb n used <> None) /\
    (forall a, In a new' <-> In a new \/ (In a weak /\ a_type a <> Reduce /\ a_type a <> WeakReduce /\ a_type a <> Goto /\ a_type a <> Divert) \/ exists b, In b weak /\ (a_type b = Reduce \/ a_type b = WeakReduce) /\ weakened b a).
  Proof.
    induction weak as [|a weak IH]; intros new used SN SU LE new' used' EF.
    - cbn in EF. injection EF as <- <-. split; [exact SN|]. split; [reflexivity|]. intros x. split; [auto|]. intros [X|[[[] _]|(? & [] & _)]]. exact X.
    - cbn [fold_left] in EF. destruct (weak_second (new, used) a) as [new1 used1] eqn:E.
      assert (X : asorted new1 /\ msorted Z.ltb used1 /\ (forall n, mfind Z.ltb n used1 <> None <-> mfind Z.ltb n used <> None) /\ (forall n, Z.of_nat (length (filter (fun a => symbol_number (a_item a) =? n) weak)) <= match mfind Z.ltb n used1 with Some c => c | None => 0 end) /\
        (forall x, In x new1 <-> In x new \/ (x = a /\ a_type x <> Reduce /\ a_type x <> WeakReduce /\ a_type x <> Goto /\ a_type x <> Divert) \/ ((a_type a = Reduce \/ a_type a = WeakReduce) /\ weakened a x))).
      { assert (LE' : forall n, Z.of_nat (length (filter (fun a => symbol_number (a_item a) =? n) weak)) <= match mfind Z.ltb n used with Some c => c | None => 0 end).
        { intros n. specialize (LE n). cbn [filter] in LE. destruct (symbol_number (a_item a) =? n); cbn [length] in LE; lia. }
        assert (RE : forall new1 used1, (ainsert (with_type WeakReduce a) new, match mfind Z.ltb (symbol_number (a_item a)) used with None => used | Some n => if n - 1 <? 0 then merase Z.ltb (symbol_number (a_item a)) used else mset Z.ltb (symbol_number (a_item a)) (n - 1) used end) = (new1, used1) ->
          msorted Z.ltb used1 /\ (forall n, mfind Z.ltb n used1 <> None <-> mfind Z.ltb n used <> None) /\ forall n, Z.of_nat (length (filter (fun a => symbol_number (a_item a) =? n) weak)) <= match mfind Z.ltb n used1 with Some c => c | None => 0 end).
        { intros n1 u1 E1. injection E1 as <- <-. destruct (mfind Z.ltb (symbol_number (a_item a)) used) as [c|] eqn:F; [|split; [exact SU|split; [reflexivity|exact LE']]].
          pose proof (LE (symbol_number (a_item a))) as L1. rewrite F in L1. cbn [filter] in L1. rewrite Z.eqb_refl in L1. cbn [length] in L1. destruct (Z.ltb_spec (c - 1) 0) as [LT|GE]; [lia|].
          split; [apply (mset_sorted _ Zltb_strict _ SU)|]. split; intros n; destruct (Z.eq_dec n (symbol_number (a_item a))) as [-> |NE].
          - rewrite (mfind_mset_same _ Zltb_strict _ SU), F. split; discriminate.
          - rewrite (mfind_mset_other _ Zltb_strict _ SU) by congruence. reflexivity.
          - rewrite (mfind_mset_same _ Zltb_strict _ SU). lia.
          - rewrite (mfind_mset_other _ Zltb_strict _ SU) by congruence. apply LE'. }
        unfold weak_second in E. destruct (a_type a) eqn:T;
          try (injection E as <- <-; split; [apply ainsert_sorted, SN|]; split; [exact SU|]; split; [reflexivity|]; split; [exact LE'|]; intros x; rewrite ainsert_in; split; [intros [-> |I]; [right; left; rewrite T; repeat split; discriminate|auto]|intros [I|[[-> _]|([X|X] & _)]]; [auto|auto|discriminate X|discriminate X]]);
          try (destruct (RE _ _ E) as (R1 & R2 & R3); injection E as <- _; split; [apply ainsert_sorted, SN|]; split; [exact R1|]; split; [exact R2|]; split; [exact R3|]; intros x; rewrite ainsert_in; split; [intros [-> |I]; [right; right; split; [auto|reflexivity]|auto]|intros [I|[[-> (X1 & X2 & _)]|(_ & ->)]]; [auto|rewrite T in X1, X2; congruence|left; reflexivity]]).
        all: injection E as <- <-; split; [exact SN|]; split; [exact SU|]; split; [reflexivity|]; split; [exact LE'|]; intros x; split; [auto|]; intros [I|[[-> (_ & _ & X1 & X2)]|([X|X] & _)]]; [exact I|rewrite T in X1, X2; congruence|discriminate X|discriminate X]. }
      destruct X as (S1 & U1 & D1 & L1 & N1). destruct (IH new1 used1 S1 U1 L1 _ _ EF) as (S2 & D2 & N2). split; [exact S2|]. split; [intros n; rewrite D2; apply D1|]. intros x. rewrite N2, N1. split.
      + intros [[I|[[-> R]|R]]|[[I R]|(b & B & R)]]; [auto|right; left; split; [left; reflexivity|exact R]|right; right; exists a; split; [left; reflexivity|exact R]|right; left; split; [right; exact I|exact R]|right; right; exists b; split; [right; exact B|exact R]].
      + intros [I|[[[-> |I] R]|(b & [-> |B] & R)]]; [auto|left; right; left; auto|right; left; auto|left; right; right; exact R|right; right; exists b; auto].
  Qed.
  Definition stronger (i : item) (a : action) : action := let b := with_item i a in match a_type b with Shift => with_type ShiftStrong b | _ => b end.
  Lemma stronger_spec x a c : c = stronger (ITerm x) a <-> as_strong x a c.
  Proof. unfold stronger, as_strong, with_item, with_type. cbn. destruct (a_type a); reflexivity. Qed.
  Lemma weak_thirds used strong : forall new, asorted new ->
    let new' := fold_left (weak_third w used) strong new in
    asorted new' /\ forall a, In a new' <-> In a new \/ exists b x, In b strong /\ In (ITerm x) (weak_for_strong (a_item b) w) /\ mfind Z.ltb x used = None /\ as_strong x b a.
  Proof.
    induction strong as [|b strong IH]; intros new SN; cbn [fold_left]; [cbn zeta; split; [exact SN|]; intros a; split; [auto|]; intros [X|(? & ? & [] & _)]; exact X|].
    assert (X : asorted (weak_third w used new b) /\ forall a, In a (weak_third w used new b) <-> In a new \/ exists x, In (ITerm x) (weak_for_strong (a_item b) w) /\ mfind Z.ltb x used = None /\ as_strong x b a).
    { unfold weak_third. generalize (weak_for_strong (a_item b) w) as l. clear -SN. intros l. revert new SN. induction l as [|i l IH]; intros new SN; cbn [fold_left]; [split; [exact SN|]; intros a; split; [auto|]; intros [X|(x & [] & _)]; exact X|].
      assert (SK : (forall x, i = ITerm x -> mfind Z.ltb x used <> None) -> asorted (fold_left (fun new i => match i with ITerm s => match mfind Z.ltb s used with Some _ => new | None => ainsert (let b0 := with_item i b in match a_type b0 with Shift => with_type ShiftStrong b0 | _ => b0 end) new end | _ => new end) l new) /\ forall a, In a (fold_left (fun new i => match i with ITerm s => match mfind Z.ltb s used with Some _ => new | None => ainsert (let b0 := with_item i b in match a_type b0 with Shift => with_type ShiftStrong b0 | _ => b0 end) new end | _ => new end) l new) <-> In a new \/ exists x, In (ITerm x) (i :: l) /\ mfind Z.ltb x used = None /\ as_strong x b a).
      { intros NI. destruct (IH new SN) as [S I]. split; [exact S|]. intros a. rewrite I. split; [intros [X|(x & X & R)]; [auto|right; exists x; split; [right; exact X|exact R]]|intros [X|(x & [E|X] & R1 & R2)]; [auto|exfalso; exact (NI _ E R1)|right; exists x; auto]]. }
      destruct i as [| | |s| | |]; try (apply SK; intros x X; discriminate X). destruct (mfind Z.ltb s used) eqn:F; [apply SK; intros x X; injection X as <-; congruence|]. clear SK.
      destruct (IH _ (ainsert_sorted (stronger (ITerm s) b) _ SN)) as [S I]. split; [exact S|]. intros a. unfold stronger in I. rewrite I, ainsert_in. fold (stronger (ITerm s) b). rewrite stronger_spec. split.
      - intros [[X|X]|(x & X & R)]; [right; exists s; split; [left; reflexivity|auto]|auto|right; exists x; split; [right; exact X|exact R]].
      - intros [X|(x & [E|X] & R1 & R2)]; [auto|injection E as <-; auto|right; exists x; auto]. }
    destruct X as [S1 I1]. destruct (IH _ S1) as [S2 I2]. cbn zeta. split; [exact S2|]. intros a. rewrite I2, I1. split.
    - intros [[X|(x & R)]|(c & x & C & R)]; [auto|right; exists b, x; split; [left; reflexivity|exact R]|right; exists c, x; split; [right; exact C|exact R]].
    - intros [X|(c & x & [<- |C] & R)]; [auto|left; right; exists x; exact R|right; exists c, x; auto].
  Qed.
  Lemma has_strong_spec acts : has_strong w acts = true <-> exists b i, In b acts /\ on_terminal b = true /\ In i (weak_for_strong (a_item b) w).
  Proof.
    unfold has_strong. rewrite existsb_exists. split.
    - intros (a & I & E). apply andb_true_iff in E. destruct E as [T E]. exists a. destruct (weak_for_strong (a_item a) w) as [|i l]; [discriminate E|]. exists i. repeat split; auto. left. reflexivity.
    - intros (a & i & I & T & W). exists a. split; [exact I|]. rewrite T. destruct (weak_for_strong (a_item a) w); [destruct W|reflexivity].
  Qed.
  Lemma weak_exact q acts : asorted acts -> asorted (weak_rewrite w q acts) /\ (has_strong w acts = false -> weak_rewrite w q acts = acts) /\
    (has_strong w acts = true -> forall a, In a (weak_rewrite w q acts) <->
      (In a acts /\ ~ weak_action a) \/ (In a acts /\ weak_action a /\ a_type a <> Reduce /\ a_type a <> WeakReduce /\ a_type a <> Goto /\ a_type a <> Divert) \/
      (exists b, In b acts /\ weak_action b /\ (a_type b = Reduce \/ a_type b = WeakReduce) /\ weakened b a) \/
      exists b x, In b acts /\ on_terminal b = true /\ ~ In (a_item b) (w_weak w) /\ In (ITerm x) (weak_for_strong (a_item b) w) /\ (forall c, In c acts -> weak_action c -> a_item c <> ITerm x) /\ as_strong x b a).
  Proof.
    intros SA. unfold weak_rewrite. destruct (has_strong w acts); cbn [negb]; [|split; [exact SA|]; split; [reflexivity|discriminate]].
    destruct (fold_left (weak_first w) acts ([], [], [], [])) as [[[new used] weak] strong] eqn:EF. destruct (weak_firsts acts _ _ _ _ _ _ _ _ (SSorted_nil _) (SSorted_nil _) EF) as (SN & SU & N & W & ST & C & D).
    assert (LE : forall n, Z.of_nat (length (filter (fun a => symbol_number (a_item a) =? n) weak)) <= match mfind Z.ltb n used with Some c => c | None => 0 end) by (intros n; specialize (C n); cbn in C; lia).
    destruct (fold_left weak_second weak (new, used)) as [new2 used2] eqn:EF2. destruct (weak_seconds weak new used SN SU LE _ _ EF2) as (S2 & D2 & N2). destruct (weak_thirds used2 strong new2 S2) as [S3 N3]. split; [exact S3|]. split; [discriminate|]. intros _ a. rewrite N3, N2, N.
    assert (UN : forall x, mfind Z.ltb x used2 = None <-> forall c, In c acts -> weak_action c -> a_item c <> ITerm x).
    { intros x. assert (DX : mfind Z.ltb x used2 <> None <-> exists c, In c acts /\ weak_action c /\ symbol_number (a_item c) = x) by (rewrite D2, D; cbn; intuition congruence). split.
      - intros F c IC WC E. apply (proj2 DX); [|exact F]. exists c. rewrite E. auto.
      - intros NC. destruct (mfind Z.ltb x used2) eqn:F; [|reflexivity]. exfalso. destruct (proj1 DX ltac:(discriminate)) as (c & IC & WC & E). apply (NC c IC WC). destruct WC as [T _]. apply terminal_spec in T. destruct T as (s & T). rewrite T in E |- *. cbn in E. congruence. }
    split.
    - intros [[[[]|X]|[(X & R)|(b & X & R)]]|(b & x & B & X & F & R)]; [auto|apply W in X; destruct X as [[]|[X1 X2]]; auto|apply W in X; destruct X as [[]|[X1 X2]]; right; right; left; exists b; auto|]. apply ST in B. destruct B as [[]|(B1 & B2 & B3)]. right. right. right. exists b, x. repeat (split; [assumption|]). split; [apply UN, F|exact R].
    - intros [X|[(X & WX & R)|[(b & X & WX & R)|(b & x & B1 & B2 & B3 & X & F & R)]]]; [auto|left; right; left; split; [apply W; auto|exact R]|left; right; right; exists b; split; [apply W; auto|exact R]|]. right. exists b, x. split; [apply ST; auto|]. split; [exact X|]. split; [apply UN, F|exact R].
  Qed.
End Weak.
Lemma weak_declared w D q acts : declared w D -> asorted acts -> asorted (weak_rewrite w q acts) /\
  ((forall b s x, In b acts -> a_item b = ITerm s -> ~ D s x) -> weak_rewrite w q acts = acts) /\
  ((exists b s x, In b acts /\ a_item b = ITerm s /\ D s x) -> forall a, In a (weak_rewrite w q acts) <-> with_weak D acts a).
Proof.
  intros DC SA. destruct (declared_ok _ _ DC) as (M & OW & OS & T & I & U). destruct (weak_exact w OW q acts SA) as (S & NO & YES). split; [exact S|].
  assert (HS : has_strong w acts = true <-> exists b s x, In b acts /\ a_item b = ITerm s /\ D s x).
  { rewrite (has_strong_spec w). split.
    - intros (b & i & B & OT & X). apply terminal_spec in OT. destruct OT as (s & E). destruct (T _ _ X) as (x & ->). exists b, s, x. rewrite E in X. split; [exact B|]. split; [exact E|]. apply I, X.
    - intros (b & s & x & B & E & X). exists b, (ITerm x). split; [exact B|]. split; [unfold on_terminal; rewrite E; reflexivity|]. rewrite E. apply I, X. }
  assert (TS : forall b i, In b acts -> a_item b = i -> In i (w_weak w) -> exists x, i = ITerm x) by (intros b i _ _ X; apply U in X; destruct X as (s & X); eapply T; exact X).
  assert (WA : forall b, weak_action w b <-> exists x, a_item b = ITerm x /\ weak_one D x /\ a_type b <> Guard).
  { intros b. unfold weak_action, weak_one. rewrite (U (a_item b)). unfold on_terminal. rewrite terminal_spec. split.
    - intros ((x & E) & (s & X) & G). exists x. split; [exact E|]. split; [|exact G]. exists s. rewrite E in X. apply I, X.
    - intros (x & E & (s & X) & G). split; [exists x; exact E|]. split; [|exact G]. exists s. rewrite E. apply I, X. }
  assert (WN : forall s, ~ In (ITerm s) (w_weak w) <-> ~ weak_one D s) by (intros s; unfold weak_one; rewrite U; split; intros NX (y & X); apply NX; exists y; apply I, X).
  split; [intros NX; apply NO; destruct (has_strong w acts); [|reflexivity]; destruct (proj1 HS eq_refl) as (b & s & x & B & E & X); exfalso; eapply NX; eassumption|]. intros HX a. specialize (YES (proj2 HS HX)). rewrite YES. clear YES NO HX HS. split.
  - intros [(X & NW)|[(X & WX & R1 & R2 & R3 & R4)|[(b & X & WX & R1 & R2)|(b & x & B1 & B2 & B3 & X & F & R)]]].
    + destruct (a_type a) eqn:TA; try (apply weak_kept; congruence); (apply weak_other; [exact X|]; intros x E WO; apply NW, WA; exists x; split; [exact E|split; [exact WO|congruence]]).
    + apply weak_kept; assumption.
    + apply WA in WX. destruct WX as (x & E & WO & _). eapply weak_weaker; eassumption.
    + apply terminal_spec in B2. destruct B2 as (s & E). rewrite E in B3, X. apply (weak_strong _ _ _ b s x); auto; [apply WN, B3|apply I, X|]. intros (c & C1 & C2 & C3). apply (F c C1); [|exact C2]. apply WA. exists x. split; [exact C2|]. split; [exists s; apply I, X|exact C3].
  - intros [X NW|X R1 R2 R3 R4|b x X E WO R1 R2|b s x B1 E B3 DX F R].
    + left. split; [exact X|]. intros WX. apply WA in WX. destruct WX as (x & E & WO & _). exact (NW _ E WO).
    + destruct (on_terminal a) eqn:OT; [|left; split; [exact X|intros [Y _]; congruence]]. apply terminal_spec in OT. destruct OT as (x & E). destruct (icontains (w_weak w) (a_item a)) eqn:C.
      * apply (icontains_in _ _ OW) in C. assert (DG : a_type a = Guard \/ a_type a <> Guard) by (destruct (a_type a); auto; right; discriminate). destruct DG as [G|G]; [left; split; [exact X|]; intros (_ & _ & Y); contradiction|]. right. left. split; [exact X|]. split; [|auto]. split; [unfold on_terminal; apply terminal_spec; eauto|auto].
      * apply (icontains_not _ _ OW) in C. left. split; [exact X|]. intros (_ & Y & _). contradiction.
    + right. right. left. exists b. split; [exact X|]. split; [apply WA; exists x; split; [exact E|split; [exact WO|]]; destruct R1; congruence|auto].
    + right. right. right. exists b, x. split; [exact B1|]. split; [apply terminal_spec; eauto|]. rewrite E. split; [apply WN, B3|]. split; [apply I, DX|]. split; [|exact R]. intros c C1 C2 C3. apply F. exists c. split; [exact C1|]. split; [exact C3|]. apply C2.
Qed.

(** ** Precedence *)
Lemma filter_one {A} (f : A -> bool) (l : list A) (a : A) : NoDup l -> (filter f l = [a] <-> In a l /\ f a = true /\ forall b, In b l -> f b = true -> b = a).
Proof.
  intros ND. split.
  - intros E. assert (I : In a (filter f l)) by (rewrite E; left; reflexivity). apply filter_In in I. destruct I as [I F]. repeat split; auto. intros b B FB. assert (X : In b (filter f l)) by (apply filter_In; auto). rewrite E in X. destruct X as [->|[]]. reflexivity.
  - intros (I & F & U). induction l as [|b l IH]; [destruct I|]. inversion ND as [|b' l' NI ND']; subst. cbn [filter]. destruct (f b) eqn:FB.
    + assert (b = a) by (apply U; [left; reflexivity|exact FB]). subst b. f_equal. assert (X : forall c, ~ In c (filter f l)). { intros c C. apply filter_In in C. destruct C as [C FC]. assert (c = a) by (apply U; [right; exact C|exact FC]). subst c. contradiction. } destruct (filter f l) as [|c r]; [reflexivity|]. exfalso. apply (X c). left. reflexivity.
    + destruct I as [->|I]; [congruence|]. apply IH; auto. intros c C FC. apply U; [right; exact C|exact FC].
Qed.
Lemma sorted_nodup s : asorted s -> NoDup s.
Proof.
  induction s as [|a s IH]; intros SS; [constructor|]. apply ssorted_cons in SS. destruct SS as [SS LT]. constructor; [|apply IH, SS]. intros I. apply LT in I. rewrite (st_irrefl _ action_strict) in I. discriminate I.
Qed.
Section Precedence.
  Context (precedence : item -> list lr0 -> option Z) (assoc : item -> list lr0 -> associativity) (state_items : Z -> list lr0).
  Notation operator := (operator (fun i => precedence i [])).
  Definition has_precedence (j : item) : Prop := (exists s, j = ITerm s) /\ precedence j [] <> None.
  Lemma precedence_item_some i l : precedence_item precedence l (Some i) = Some i /\ (forall j, In j l -> ~ has_precedence j) \/ precedence_item precedence l (Some i) = None /\ exists j, In j l /\ has_precedence j.
  Proof.
    induction l as [|j l IH]; cbn [precedence_item]; [left; split; [reflexivity|intros j []]|]. destruct (is_terminal j) eqn:T; cbn [negb].
    - apply terminal_spec in T. destruct (precedence j []) eqn:P; [right; split; [reflexivity|]; exists j; split; [left; reflexivity|split; [exact T|congruence]]|]. destruct IH as [[E NJ]|[E (k & K & H)]]; [left|right]; (split; [exact E|]); [intros k [<- |K]; [intros [_ X]; contradiction|apply NJ, K]|exists k; split; [right; exact K|exact H]].
    - assert (NT : ~ has_precedence j) by (intros [X _]; apply terminal_spec in X; congruence). destruct IH as [[E NJ]|[E (k & K & H)]]; [left|right]; (split; [exact E|]); [intros k [<- |K]; auto|exists k; split; [right; exact K|exact H]].
  Qed.
  Definition operator_in (l : list item) (i : item) : Prop := exists before after, l = before ++ i :: after /\ has_precedence i /\ forall j, In j (before ++ after) -> ~ has_precedence j.
  Lemma precedence_item_none l i : precedence_item precedence l None = Some i <-> operator_in l i.
  Proof.
    revert i. induction l as [|j l IH]; intros i; cbn [precedence_item]; [split; [discriminate|intros (b & a & E & _); destruct b; discriminate E]|].
    assert (SK : ~ has_precedence j -> operator_in (j :: l) i <-> operator_in l i).
    { intros NJ. split.
      - intros (b & a & E & P & N). destruct b as [|b0 b]; [injection E as -> ->; contradiction|]. injection E as -> ->. exists b, a. split; [reflexivity|]. split; [exact P|]. intros k K. apply N. right. exact K.
      - intros (b & a & -> & P & N). exists (j :: b), a. split; [reflexivity|]. split; [exact P|]. intros k [<- |K]; auto. }
    destruct (is_terminal j) eqn:T; cbn [negb].
    - apply terminal_spec in T. destruct (precedence j []) eqn:P; [|rewrite IH, SK; [reflexivity|]; intros [_ X]; contradiction].
      assert (PJ : has_precedence j) by (split; [exact T|congruence]). destruct (precedence_item_some j l) as [[E NJ]|[E (k & K & H)]]; rewrite E.
      + split.
        * intros X. injection X as <-. exists [], l. auto.
        * intros (b & a & EQ & PI & N). destruct b as [|b0 b]; [injection EQ as -> _; reflexivity|]. injection EQ as -> ->. exfalso. apply (NJ i); [apply in_or_app; right; left; reflexivity|exact PI].
      + split; [discriminate|]. intros (b & a & EQ & PI & N). destruct b as [|b0 b]; [injection EQ as -> ->; exfalso; exact (N k K H)|]. injection EQ as -> ->. exfalso. apply (N b0); [left; reflexivity|exact PJ].
    - rewrite IH, SK; [reflexivity|]. intros [X _]. apply terminal_spec in X. congruence.
  Qed.
  Lemma operator_spec r i : operator r i <-> precedence_item precedence (r_items r) None = Some i.
  Proof.
    rewrite precedence_item_none. unfold RewriteSpec.operator, operator_in, has_precedence. split.
    - intros (b & a & E & T & P & N). exists b, a. split; [exact E|]. split; [auto|]. intros j J [TJ PJ]. apply PJ, N; assumption.
    - intros (b & a & E & [T P] & N). exists b, a. split; [exact E|]. split; [exact T|]. split; [exact P|]. intros j J TJ. destruct (precedence j []) eqn:PJ; [|reflexivity]. exfalso. apply (N j J). split; [exact TJ|congruence].
  Qed.
  Definition drops_action (q : Z) (i : item) (l : list action) (a : action) : Prop :=
    a_item a = i /\ exists s r sp rp, filter is_shift l = [s] /\ filter is_reduce l = [r] /\ precedence i (shift_items state_items q i) = Some sp /\ rule_precedence precedence (a_rule r) = Some rp /\
    (((sp < rp \/ (sp = rp /\ rule_associativity precedence assoc (a_rule r) = Left_assoc)) /\ a = s) \/ ((rp < sp \/ (sp = rp /\ rule_associativity precedence assoc (a_rule r) = Right_assoc)) /\ a = r)).
  Lemma resolve_in q s i l a : (forall b, In b l -> a_item b = i) -> asorted s -> In a (precedence_resolve precedence assoc state_items q s (i, l)) <-> (In a s /\ ~ drops_action q i l a) \/ False.
  Proof.
    intros LI SS. unfold precedence_resolve, drops_action.
    assert (SAME : (~ exists s0 r sp rp, filter is_shift l = [s0] /\ filter is_reduce l = [r] /\ precedence i (shift_items state_items q i) = Some sp /\ rule_precedence precedence (a_rule r) = Some rp /\ ((sp < rp \/ (sp = rp /\ rule_associativity precedence assoc (a_rule r) = Left_assoc)) \/ (rp < sp \/ (sp = rp /\ rule_associativity precedence assoc (a_rule r) = Right_assoc)))) ->
      In a s <-> (In a s /\ ~ (a_item a = i /\ exists s0 r sp rp, filter is_shift l = [s0] /\ filter is_reduce l = [r] /\ precedence i (shift_items state_items q i) = Some sp /\ rule_precedence precedence (a_rule r) = Some rp /\ (((sp < rp \/ (sp = rp /\ rule_associativity precedence assoc (a_rule r) = Left_assoc)) /\ a = s0) \/ ((rp < sp \/ (sp = rp /\ rule_associativity precedence assoc (a_rule r) = Right_assoc)) /\ a = r)))) \/ False).
    { intros NX. split; [|tauto]. intros I. left. split; [exact I|]. intros (_ & s0 & r & sp & rp & H1 & H2 & H3 & H4 & H5). apply NX. exists s0, r, sp, rp. tauto. }
    destruct (filter is_shift l) as [|sh [|? ?]] eqn:FS; try (apply SAME; intros (? & ? & ? & ? & X & _); discriminate X).
    destruct (filter is_reduce l) as [|re [|? ?]] eqn:FR; try (apply SAME; intros (? & ? & ? & ? & _ & X & _); discriminate X).
    destruct (precedence i (shift_items state_items q i)) as [sp|] eqn:SP; [|apply SAME; intros (? & ? & ? & ? & _ & _ & X & _); discriminate X].
    destruct (rule_precedence precedence (a_rule re)) as [rp|] eqn:RP; [|apply SAME; intros (? & ? & ? & ? & _ & X1 & _ & X & _); injection X1 as <-; congruence].
    assert (IS : a_item sh = i) by (apply LI; assert (X : In sh (filter is_shift l)) by (rewrite FS; left; reflexivity); apply filter_In in X; apply X).
    assert (IR : a_item re = i) by (apply LI; assert (X : In re (filter is_reduce l)) by (rewrite FR; left; reflexivity); apply filter_In in X; apply X).
    assert (TY : sh <> re). { assert (X : In sh (filter is_shift l)) by (rewrite FS; left; reflexivity). assert (Y : In re (filter is_reduce l)) by (rewrite FR; left; reflexivity). apply filter_In in X. apply filter_In in Y. destruct X as [_ X]. destruct Y as [_ Y]. apply shift_spec in X. apply reduce_spec in Y. congruence. }
    destruct (Z.ltb_spec sp rp) as [LT|GE].
    { rewrite (aerase_in _ _ _ SS). split.
      - intros [I NE]. left. split; [exact I|]. intros (_ & s0 & r & sp' & rp' & H1 & H2 & H3 & H4 & H5). injection H1 as <-. injection H2 as <-. injection H3 as <-. rewrite RP in H4. injection H4 as <-. destruct H5 as [[_ X]|[[X|[X _]] _]]; [contradiction|lia|lia].
      - intros [[I NX]|[]]. split; [exact I|]. intros ->. apply NX. split; [exact IS|]. exists sh, re, sp, rp. repeat split; auto. }
    destruct (Z.ltb_spec rp sp) as [LT|GE2].
    { rewrite (aerase_in _ _ _ SS). split.
      - intros [I NE]. left. split; [exact I|]. intros (_ & s0 & r & sp' & rp' & H1 & H2 & H3 & H4 & H5). injection H1 as <-. injection H2 as <-. injection H3 as <-. rewrite RP in H4. injection H4 as <-. destruct H5 as [[[X|[X _]] _]|[_ X]]; [lia|lia|contradiction].
      - intros [[I NX]|[]]. split; [exact I|]. intros ->. apply NX. split; [exact IR|]. exists sh, re, sp, rp. repeat split; auto. }
    assert (sp = rp) by lia. subst rp. destruct (rule_associativity precedence assoc (a_rule re)) eqn:RA.
    1,2: apply SAME; intros (s0 & r & sp' & rp' & H1 & H2 & H3 & H4 & H5); injection H1 as <-; injection H2 as <-; injection H3 as <-; rewrite RP in H4; injection H4 as <-; destruct H5 as [[X|[_ X]]|[X|[_ X]]]; [lia|congruence|lia|congruence].
    - rewrite (aerase_in _ _ _ SS). split.
      + intros [I NE]. left. split; [exact I|]. intros (_ & s0 & r & sp' & rp' & H1 & H2 & H3 & H4 & H5). injection H1 as <-. injection H2 as <-. injection H3 as <-. rewrite RP in H4. injection H4 as <-. destruct H5 as [[_ X]|[[X|[_ X]] _]]; [contradiction|lia|congruence].
      + intros [[I NX]|[]]. split; [exact I|]. intros ->. apply NX. split; [exact IS|]. exists sh, re, sp, sp. repeat split; auto.
    - rewrite (aerase_in _ _ _ SS). split.
      + intros [I NE]. left. split; [exact I|]. intros (_ & s0 & r & sp' & rp' & H1 & H2 & H3 & H4 & H5). injection H1 as <-. injection H2 as <-. injection H3 as <-. rewrite RP in H4. injection H4 as <-. destruct H5 as [[[X|[_ X]] _]|[_ X]]; [lia|congruence|contradiction].
      + intros [[I NX]|[]]. split; [exact I|]. intros ->. apply NX. split; [exact IR|]. exists sh, re, sp, sp. repeat split; auto.
  Qed.
  Lemma resolve_sorted q s g : asorted s -> asorted (precedence_resolve precedence assoc state_items q s g).
  Proof.
    intros SS. destruct g as [i l]. unfold precedence_resolve. repeat (match goal with |- asorted (match ?x with _ => _ end) => destruct x end; try exact SS; try (apply aerase_sorted, SS)).
  Qed.
  Lemma precedence_exact q acts : asorted acts -> asorted (precedence_rewrite precedence assoc state_items q acts) /\
    forall a, In a (precedence_rewrite precedence assoc state_items q acts) <-> In a acts /\ ~ loses (fun i => precedence i []) (fun i => assoc i []) (fun i => precedence i (shift_items state_items q i)) acts a.
  Proof.
    intros SA. destruct (group_spec on_terminal acts) as [MS GI].
    assert (LI : forall i l b, In (i, l) (group on_terminal acts) -> In b l -> a_item b = i) by (intros i l b G B; apply GI in G; destruct G as [-> _]; apply for_item_in in B; apply B).
    destruct (fold_groups (precedence_resolve precedence assoc state_items q) (drops_action q) (fun _ _ _ => False) (fun i l a X => proj1 X) (fun i l a X => False_ind _ X) (fun s g => resolve_sorted q s g) (group on_terminal acts) (fun s i l a G SS => resolve_in q s i l a (fun b => LI i l b G) SS) MS acts SA) as [S I]. split; [exact S|]. intros a. unfold precedence_rewrite. rewrite I.
    assert (EQ : In a acts -> (exists i l, In (i, l) (group on_terminal acts) /\ drops_action q i l a) <-> loses (fun i => precedence i []) (fun i => assoc i []) (fun i => precedence i (shift_items state_items q i)) acts a).
    { intros IA. assert (ONE : forall (f : action -> bool) t i c, (forall x, f x = true <-> a_type x = t) -> is_terminal i = true -> (filter f (for_item on_terminal i acts) = [c] <-> only_one acts t i c)).
      { intros f t i c FT TI. rewrite filter_one by (apply NoDup_filter, sorted_nodup, SA). unfold only_one. setoid_rewrite for_item_in. setoid_rewrite FT. unfold on_terminal. split.
        - intros ((C1 & C2 & C3) & C4 & C5). repeat split; auto. intros b B1 B2 B3. apply C5; [|exact B2]. rewrite B3. auto.
        - intros (C1 & C2 & C3 & C4). rewrite C3. repeat split; auto. intros b (B1 & B2 & B3) B4. apply C4; auto. }
      split.
      - intros (i & l & G & AI & sh & re & sp & rp & FS & FR & SP & RP & R). apply GI in G. destruct G as [-> NE]. assert (TI : is_terminal i = true). { destruct (for_item on_terminal i acts) as [|b ?] eqn:E; [congruence|]. assert (B : In b (for_item on_terminal i acts)) by (rewrite E; left; reflexivity). apply for_item_in in B. destruct B as (_ & B & <-). exact B. }
        apply (ONE is_shift Shift _ _ shift_spec TI) in FS. apply (ONE is_reduce Reduce _ _ reduce_spec TI) in FR. apply terminal_spec in TI. destruct TI as (s & TI). unfold rule_precedence in RP. unfold rule_associativity in R. destruct (precedence_item precedence (r_items (a_rule re)) None) as [o|] eqn:O; [|discriminate RP]. apply operator_spec in O.
        destruct R as [[R ->]|[R ->]]; [eapply shift_loses|eapply reduce_loses]; eassumption.
      - intros H. assert (X : exists s i sh re o sp rp, i = ITerm s /\ only_one acts Shift i sh /\ only_one acts Reduce i re /\ operator (a_rule re) o /\ precedence i (shift_items state_items q i) = Some sp /\ precedence o [] = Some rp /\ (((sp < rp \/ (sp = rp /\ assoc o [] = Left_assoc)) /\ a = sh) \/ ((rp < sp \/ (sp = rp /\ assoc o [] = Right_assoc)) /\ a = re))).
        { destruct H as [s i sh re o sp rp H1 H2 H3 H4 H5 H6 H7|s i sh re o sp rp H1 H2 H3 H4 H5 H6 H7]; exists s, i, sh, re, o, sp, rp; repeat (split; [assumption|]); [left|right]; auto. }
        destruct X as (s & i & sh & re & o & sp & rp & -> & OS & OR & OP & SP & RP & R). exists (ITerm s), (for_item on_terminal (ITerm s) acts). apply operator_spec in OP. split; [apply GI; split; [reflexivity|]|].
        + intros E. assert (B : In sh (for_item on_terminal (ITerm s) acts)) by (apply for_item_in; destruct OS as (O1 & O2 & O3 & _); unfold on_terminal; rewrite O3; auto). rewrite E in B. destruct B.
        + split; [destruct R as [[_ ->]|[_ ->]]; [apply OS|apply OR]|]. exists sh, re, sp, rp. split; [apply (ONE is_shift Shift (ITerm s) _ shift_spec eq_refl), OS|]. split; [apply (ONE is_reduce Reduce (ITerm s) _ reduce_spec eq_refl), OR|]. split; [exact SP|]. unfold rule_precedence, rule_associativity. rewrite OP. auto. }
    split.
    - intros [[IA NX]|(? & ? & _ & [])]. split; [exact IA|]. intros LO. apply NX, (EQ IA), LO.
    - intros [IA NX]. left. split; [exact IA|]. intros X. apply NX, (EQ IA), X.
  Qed.
End Precedence.

(** ** Precedence blocks *)
Definition block_assoc (a : associativity) : associativity := match a with Left_assoc => Left_assoc | Right_assoc => Right_assoc | _ => Nonassoc end.
Lemma block_level_sorted n a symbols : forall m, msorted Z.ltb m -> msorted Z.ltb (block_level n a symbols m).
Proof. induction symbols as [|s l IH]; intros m M; [exact M|]. unfold block_level. cbn [fold_left]. apply IH. destruct (s <? 0); [exact M|apply (mset_sorted _ Zltb_strict _ M)]. Qed.
Lemma block_level_find n a symbols s : forall m, msorted Z.ltb m -> 0 <= s ->
  (In s symbols -> mfind Z.ltb s (block_level n a symbols m) = Some (n, block_assoc a)) /\ (~ In s symbols -> mfind Z.ltb s (block_level n a symbols m) = mfind Z.ltb s m).
Proof.
  induction symbols as [|x l IH]; intros m M P; [split; [intros []|reflexivity]|]. unfold block_level. cbn [fold_left]. fold (block_assoc a). set (m1 := if x <? 0 then m else mset Z.ltb x (n, block_assoc a) m).
  assert (M1 : msorted Z.ltb m1) by (unfold m1; destruct (x <? 0); [exact M|apply (mset_sorted _ Zltb_strict _ M)]). destruct (IH m1 M1 P) as [I1 I2]. change (fold_left _ l m1) with (block_level n a l m1). split.
  - intros I. destruct (in_dec Z.eq_dec s l) as [IL|NL]; [apply I1, IL|]. rewrite (I2 NL). destruct I as [->|I]; [|contradiction]. unfold m1. destruct (Z.ltb_spec s 0); [lia|]. apply (mfind_mset_same _ Zltb_strict _ M).
  - intros NI. rewrite I2 by (intros X; apply NI; right; exact X). unfold m1. destruct (x <? 0); [reflexivity|]. apply (mfind_mset_other _ Zltb_strict _ M). intros ->. apply NI. left. reflexivity.
Qed.
Lemma last_level_cons p b s n a : last_level b s n a -> last_level (p :: b) s (S n) a.
Proof.
  intros (P & (sy & E & I) & L). split; [lia|]. split.
  - exists sy. replace (S n - 1)%nat with (S (n - 1)) by lia. auto.
  - intros n' a' sy' LE E'. destruct n' as [|n']; [lia|]. apply (L n' a' sy'); [lia|exact E'].
Qed.
Lemma block_levels_find b s : 0 <= s -> forall n m, msorted Z.ltb m ->
  (exists k a, last_level b s k a /\ mfind Z.ltb s (block_levels n b m) = Some (n + Z.of_nat k, block_assoc a)) \/
  ((forall a symbols, In (a, symbols) b -> ~ In s symbols) /\ mfind Z.ltb s (block_levels n b m) = mfind Z.ltb s m).
Proof.
  intros P. induction b as [|[a symbols] b IH]; intros n m M; [right; split; [intros a symbols []|reflexivity]|]. cbn [block_levels]. destruct (IH (n + 1) _ (block_level_sorted (n + 1) a symbols m M)) as [(k & a' & L & E)|[NL E]].
  - left. exists (S k), a'. split; [apply last_level_cons, L|]. rewrite E. f_equal; f_equal; lia.
  - destruct (block_level_find (n + 1) a symbols s m M P) as [I1 I2]. destruct (in_dec Z.eq_dec s symbols) as [I|NI].
    + left. exists 1%nat, a. split; [|rewrite E, (I1 I); f_equal; f_equal; lia]. split; [lia|]. split; [exists symbols; auto|]. intros n' a' sy LE E'. destruct n' as [|n']; [lia|]. cbn in E'. apply nth_error_In in E'. exact (NL _ _ E').
    + right. split; [|rewrite E, (I2 NI); reflexivity]. intros a' sy [X|X]; [injection X as <- <-; exact NI|exact (NL _ _ X)].
Qed.
Lemma last_level_in b s n a : last_level b s n a -> exists symbols, In (a, symbols) b /\ In s symbols.
Proof. intros (_ & (sy & E & I) & _). exists sy. split; [eapply nth_error_In; exact E|exact I]. Qed.
Lemma last_level_unique b s n a n' a' : last_level b s n a -> last_level b s n' a' -> n = n' /\ a = a'.
Proof.
  intros (P & (sy & E & I) & L) (P' & (sy' & E' & I') & L'). assert (n = n').
  { destruct (Nat.lt_trichotomy n n') as [H|[H|H]]; [|exact H|]; exfalso; [apply (L (n' - 1)%nat _ _ ltac:(lia) E' I')|apply (L' (n - 1)%nat _ _ ltac:(lia) E I)]. }
  subst n'. rewrite E in E'. injection E' as <- _. auto.
Qed.
Lemma block_negative b : forall n m s, s < 0 -> mfind Z.ltb s m = None -> msorted Z.ltb m -> mfind Z.ltb s (block_levels n b m) = None.
Proof.
  induction b as [|[a symbols] b IH]; intros n m s N F M; [exact F|]. cbn [block_levels]. apply IH; [exact N| |apply block_level_sorted, M]. clear IH. revert m F M. induction symbols as [|x l IH]; intros m F M; [exact F|]. unfold block_level. cbn [fold_left]. apply IH; destruct (Z.ltb_spec x 0); try assumption; [rewrite (mfind_mset_other _ Zltb_strict _ M) by lia; exact F|apply (mset_sorted _ Zltb_strict _ M)].
Qed.
Lemma block_exact b s l : (forall n, block_precedence b (ITerm s) l = Some n <-> 0 <= s /\ exists k a, last_level b s k a /\ n = Z.of_nat k) /\
  (forall k a, 0 <= s -> last_level b s k a -> block_associativity b (ITerm s) l = block_assoc a).
Proof.
  unfold block_precedence, block_associativity, block_map. destruct (Z.ltb_spec s 0) as [N|P].
  - rewrite (block_negative b 0 [] s N eq_refl (SSorted_nil _)). split; [intros n; split; [discriminate|lia]|intros; lia].
  - destruct (block_levels_find b s P 0 [] (SSorted_nil _)) as [(k & a & L & E)|[NL E]]; rewrite E.
    + split.
      * intros n. split; [intros X; injection X as <-; split; [exact P|]; exists k, a; split; [exact L|lia]|]. intros (_ & k' & a' & L' & ->). destruct (last_level_unique _ _ _ _ _ _ L L') as [-> _]. f_equal; lia.
      * intros k' a' _ L'. destruct (last_level_unique _ _ _ _ _ _ L L') as [_ ->]. reflexivity.
    + cbn [mfind]. split.
      * intros n. split; [discriminate|]. intros (_ & k' & a' & L' & _). apply last_level_in in L'. destruct L' as (sy & I1 & I2). exfalso. exact (NL _ _ I1 I2).
      * intros k' a' _ L'. apply last_level_in in L'. destruct L' as (sy & I1 & I2). exfalso. exact (NL _ _ I1 I2).
Qed.

(** ** Conflict attributes *)
Lemma any_shift_spec a : is_any_shift a = true <-> shift_type (a_type a).
Proof. unfold is_any_shift, shift_type. destruct (a_type a); split; try discriminate; try tauto; intros [X|X]; discriminate X. Qed.
Lemma filter_none {A} (f : A -> bool) (l : list A) : length (filter f l) = 0%nat <-> forall a, In a l -> f a = false.
Proof.
  induction l as [|b l IH]; cbn; [split; [intros _ a []|reflexivity]|]. destruct (f b) eqn:F; cbn; [split; [discriminate|]; intros H; rewrite (H b) in F by (left; reflexivity); discriminate F|]. rewrite IH. split; [intros H a [<- |I]; auto|auto].
Qed.
Lemma filter_two {A} (f g : A -> bool) (l : list A) : (forall a, f a = true -> g a = true -> False) -> (length (filter f l) + length (filter g l) <= length l)%nat.
Proof. intros D. induction l as [|a l IH]; cbn; [lia|]. destruct (f a) eqn:F, (g a) eqn:G; cbn; try lia; destruct (D _ F G). Qed.
Lemma filter_le1 {A} (f : A -> bool) (l : list A) : NoDup l -> (length (filter f l) <= 1)%nat <-> forall a b, In a l -> In b l -> f a = true -> f b = true -> a = b.
Proof.
  intros ND. split.
  - intros LE a b A1 B1 FA FB. assert (IA : In a (filter f l)) by (apply filter_In; auto). assert (IB : In b (filter f l)) by (apply filter_In; auto). destruct (filter f l) as [|x [|y r]]; cbn in LE; [destruct IA| |lia]. destruct IA as [<- |[]]. destruct IB as [<- |[]]. reflexivity.
  - intros H. pose proof (NoDup_filter f ND) as NF. assert (Y : forall a, In a (filter f l) -> In a l /\ f a = true) by (intros a; apply filter_In). destruct (filter f l) as [|x [|y r]]; cbn; [lia|lia|]. exfalso. inversion NF as [|? ? NI _]; subst. apply NI. left. destruct (Y x) as [X1 X2]; [left; reflexivity|]. destruct (Y y) as [Y1 Y2]; [right; left; reflexivity|]. apply H; auto.
Qed.
Section Attributes.
  Context (closure : Z -> list lr0) (attribute : rule -> nat -> conflict_action).
  Definition resolve_step (i : item) (res : conflict_action) (k : lr0) : conflict_action :=
    match after_dot k with [] => res | j :: _ => if item_eqb j i then match attribute (l_rule k) (l_offset k) with NotSpecified => res | a => a end else res end.
  Lemma step_skip i res k : (shifts i k -> attribute (l_rule k) (l_offset k) = NotSpecified) -> resolve_step i res k = res.
  Proof. intros H. unfold resolve_step. destruct (after_dot k) as [|j rest] eqn:A; [reflexivity|]. destruct (item_eqb j i) eqn:E; [|reflexivity]. apply item_eqb_spec in E. subst j. rewrite H; [reflexivity|]. exists rest. exact A. Qed.
  Lemma step_take i res k : shifts i k -> attribute (l_rule k) (l_offset k) <> NotSpecified -> resolve_step i res k = attribute (l_rule k) (l_offset k).
  Proof. intros (rest & A) N. unfold resolve_step. rewrite A. replace (item_eqb i i) with true by (symmetry; apply item_eqb_spec; reflexivity). destruct (attribute (l_rule k) (l_offset k)); congruence. Qed.
  Lemma steps_skip i l : (forall k, In k l -> shifts i k -> attribute (l_rule k) (l_offset k) = NotSpecified) -> forall res, fold_left (resolve_step i) l res = res.
  Proof. induction l as [|k l IH]; intros H res; [reflexivity|]. cbn [fold_left]. rewrite step_skip by (apply H; left; reflexivity). apply IH. intros k' K. apply H. right. exact K. Qed.
  Lemma resolved_spec i l r : resolved attribute i l r <-> r = fold_left (resolve_step i) l NotSpecified.
  Proof.
    split.
    - intros [l0 H|l0 k l' SH N H]; [symmetry; apply steps_skip, H|]. rewrite fold_left_app. cbn [fold_left]. rewrite (steps_skip _ _ H). symmetry. apply step_take; assumption.
    - intros ->. induction l as [|k l IH] using rev_ind; [constructor; intros k []|]. rewrite fold_left_app. cbn [fold_left].
      assert (DN : {attribute (l_rule k) (l_offset k) = NotSpecified} + {attribute (l_rule k) (l_offset k) <> NotSpecified}) by (destruct (attribute _ _); auto; right; discriminate).
      assert (DS : shifts i k \/ ~ shifts i k). { unfold shifts. destruct (after_dot k) as [|j rest]; [right; intros (? & X); discriminate X|]. destruct (item_eqb j i) eqn:E; [apply item_eqb_spec in E; subst j; left; eauto|]. right. intros (? & X). injection X as -> _. assert (Y : item_eqb i i = true) by (apply item_eqb_spec; reflexivity). congruence. }
      destruct DN as [E|NE], DS as [SH|NS]; try (rewrite step_skip by tauto).
      1,2,4: inversion IH as [l0 H|l0 k0 l' SH0 N0 H]; [apply resolved_none; intros k' K; apply in_app_or in K; destruct K as [K|[<- |[]]]; [apply H, K|tauto]|rewrite <- app_assoc; cbn [app]; apply resolved_by; [assumption|assumption|]; intros k' K; apply in_app_or in K; destruct K as [K|[<- |[]]]; [apply H, K|tauto]].
      rewrite step_take by assumption. apply resolved_by; auto. intros k' [].
  Qed.
  Definition dropped_by (r : conflict_action) (a : action) : Prop := match r with ResolveShift | ResolveWeak => a_type a = Reduce | ResolveReduce => shift_type (a_type a) | NotSpecified => False end.
  Lemma resolve_actions r l : forall s, asorted s -> let s' := fold_left (resolve_action r) l s in
    asorted s' /\ forall a, In a s' <-> (In a s /\ ~ (In a l /\ dropped_by r a)) \/ (r = ResolveWeak /\ exists b, In b l /\ a_type b = Reduce /\ weakened b a).
  Proof.
    induction l as [|b l IH]; intros s SS; cbn zeta; [cbn; split; [exact SS|]; intros a; split; [intros I; left; split; [exact I|tauto]|]; intros [[I _]|(_ & b & [] & _)]; exact I|]. cbn [fold_left].
    assert (X : asorted (resolve_action r s b) /\ forall a, In a (resolve_action r s b) <-> (In a s /\ ~ (a = b /\ dropped_by r a)) \/ (r = ResolveWeak /\ a_type b = Reduce /\ weakened b a)).
    { pose proof (any_shift_spec b) as AS. pose proof (reduce_spec b) as RS. unfold resolve_action. destruct (is_any_shift b) eqn:EA, (is_reduce b) eqn:ER; cbn [orb negb].
      1: exfalso; destruct (proj1 AS eq_refl) as [X|X]; rewrite (proj1 RS eq_refl) in X; discriminate X.
      - assert (NR : a_type b <> Reduce) by (intros X; apply RS in X; discriminate X). destruct r; cbn [dropped_by]; try (split; [exact SS|]; intros a; split; [intros I; left; split; [exact I|]; try tauto; intros [-> X]; contradiction|]; intros [[I _]|(_ & X & _)]; [exact I|contradiction]).
        split; [apply aerase_sorted, SS|]. intros a. rewrite (aerase_in _ _ _ SS). split; [intros [I NE]; left; split; [exact I|]; intros [X _]; contradiction|]. intros [[I NX]|(X & _)]; [|discriminate X]. split; [exact I|]. intros ->. apply NX. split; [reflexivity|apply AS; reflexivity].
      - assert (YR := proj1 RS eq_refl). destruct r; cbn [dropped_by].
        + split; [exact SS|]. intros a. split; [intros I; left; split; [exact I|]; tauto|]. intros [[I _]|(X & _)]; [exact I|discriminate X].
        + split; [apply aerase_sorted, SS|]. intros a. rewrite (aerase_in _ _ _ SS). split; [intros [I NE]; left; split; [exact I|]; intros [X _]; contradiction|]. intros [[I NX]|(X & _)]; [|discriminate X]. split; [exact I|]. intros ->. apply NX. auto.
        + split; [exact SS|]. intros a. split; [intros I; left; split; [exact I|]; intros [-> [X|X]]; congruence|]. intros [[I _]|(X & _)]; [exact I|discriminate X].
        + split; [apply ainsert_sorted, aerase_sorted, SS|]. intros a. rewrite ainsert_in, (aerase_in _ _ _ SS). split; [intros [-> |[I NE]]; [right; repeat split; auto|left; split; [exact I|]; intros [X _]; contradiction]|]. intros [[I NX]|(_ & _ & ->)]; [|left; reflexivity]. right. split; [exact I|]. intros ->. apply NX. auto.
      - assert (NR : a_type b <> Reduce) by (intros X; apply RS in X; discriminate X). assert (NS : ~ shift_type (a_type b)) by (intros X; apply AS in X; discriminate X). split; [exact SS|]. intros a. split; [intros I; left; split; [exact I|]; intros [-> X]; destruct r; cbn in X; auto|]. intros [[I _]|(_ & X & _)]; [exact I|contradiction]. }
    destruct X as [S1 I1]. destruct (IH _ S1) as [S2 I2]. split; [exact S2|]. intros a. rewrite I2, I1. split.
    - intros [[[[I N1]|(E & T & W)] N2]|(E & c & C & R)]; [left; split; [exact I|]; intros [[<- |X] Y]; [apply N1; auto|apply N2; auto]|right; split; [exact E|]; exists b; split; [left; reflexivity|auto]|right; split; [exact E|]; exists c; split; [right; exact C|exact R]].
    - intros [[I NX]|(E & c & [<- |C] & T & W)].
      + left. split; [left; split; [exact I|]; intros [-> X]; apply NX; split; [left; reflexivity|exact X]|]. intros [X Y]. apply NX. split; [right; exact X|exact Y].
      + left. split; [right; auto|]. intros [_ X]. subst r. cbn in X. rewrite W in X. discriminate X.
      + right. split; [exact E|]. exists c. auto.
  Qed.
  Definition active (q : Z) (i : item) (l : list action) (r : conflict_action) : Prop :=
    (2 <= length l)%nat /\ length (filter is_any_shift l) <> 0%nat /\ length (filter is_reduce l) <> 0%nat /\ resolution closure attribute q i = r /\ r <> NotSpecified /\ ((length (filter is_reduce l) <= 1)%nat \/ r = ResolveReduce).
  Definition att_drops (q : Z) (i : item) (l : list action) (a : action) : Prop := a_item a = i /\ exists r, active q i l r /\ In a l /\ dropped_by r a.
  Definition att_adds (q : Z) (i : item) (l : list action) (a : action) : Prop := a_item a = i /\ active q i l ResolveWeak /\ exists b, In b l /\ a_type b = Reduce /\ weakened b a.
  Lemma att_resolve_spec q s i l : (forall r, ~ active q i l r) /\ attribute_resolve closure attribute q s (i, l) = s \/ exists r, active q i l r /\ attribute_resolve closure attribute q s (i, l) = fold_left (resolve_action r) l s.
  Proof.
    unfold attribute_resolve, active. destruct (Nat.ltb_spec (length l) 2); [left; split; [intros r (X & _); lia|reflexivity]|]. destruct (Nat.eqb_spec (length (filter is_any_shift l)) 0); cbn [orb]; [left; split; [intros r (_ & X & _); contradiction|reflexivity]|].
    destruct (Nat.eqb_spec (length (filter is_reduce l)) 0); cbn [orb]; [left; split; [intros r (_ & _ & X & _); contradiction|reflexivity]|]. destruct (resolution closure attribute q i) eqn:R.
    - left. split; [intros r (_ & _ & _ & X & Y & _); congruence|reflexivity].
    - destruct (Nat.ltb_spec 1 (length (filter is_reduce l))); cbn [andb negb]; [left; split; [intros r (_ & _ & _ & X & _ & [Y|Y]); [lia|congruence]|reflexivity]|]. right. eexists. split; [|reflexivity]. repeat (split; [auto; discriminate|]). auto.
    - rewrite andb_false_r. right. eexists. split; [|reflexivity]. repeat (split; [auto; discriminate|]). auto.
    - destruct (Nat.ltb_spec 1 (length (filter is_reduce l))); cbn [andb negb]; [left; split; [intros r (_ & _ & _ & X & _ & [Y|Y]); [lia|congruence]|reflexivity]|]. right. eexists. split; [|reflexivity]. repeat (split; [auto; discriminate|]). auto.
  Qed.
  Lemma active_unique q i l r r' : active q i l r -> active q i l r' -> r = r'.
  Proof. intros (_ & _ & _ & E & _) (_ & _ & _ & E' & _). congruence. Qed.
  Lemma att_resolve_in q s i l a : (forall b, In b l -> a_item b = i) -> asorted s -> In a (attribute_resolve closure attribute q s (i, l)) <-> (In a s /\ ~ att_drops q i l a) \/ att_adds q i l a.
  Proof.
    intros LI SS. destruct (att_resolve_spec q s i l) as [[NA ->]|(r & AC & ->)].
    - split; [intros I; left; split; [exact I|]; intros (_ & r & X & _); exact (NA _ X)|]. intros [[I _]|(_ & X & _)]; [exact I|]. destruct (NA _ X).
    - destruct (resolve_actions r l s SS) as [_ I]. rewrite I. split.
      + intros [[IS NX]|(-> & b & B & T & W)]; [left; split; [exact IS|]; intros (_ & r' & AC' & AL & D); rewrite (active_unique _ _ _ _ _ AC' AC) in D; apply NX; auto|]. right. split; [rewrite W; cbn; apply LI, B|]. split; [exact AC|]. exists b. auto.
      + intros [[IS NX]|(E & AC' & R)]; [left; split; [exact IS|]; intros [AL D]; apply NX; split; [apply LI, AL|]; exists r; auto|]. right. split; [exact (active_unique _ _ _ _ _ AC AC')|exact R].
  Qed.
  Lemma att_resolve_sorted q s g : asorted s -> asorted (attribute_resolve closure attribute q s g).
  Proof. intros SS. destruct g as [i l]. destruct (att_resolve_spec q s i l) as [[_ ->]|(r & _ & ->)]; [exact SS|]. apply (resolve_actions r l s SS). Qed.
  Lemma attributes_exact q acts : asorted acts -> asorted (attribute_rewrite closure attribute q acts) /\ forall a, In a (attribute_rewrite closure attribute q acts) <-> with_attributes attribute (closure q) acts a.
  Proof.
    intros SA. destruct (group_spec on_terminal acts) as [MS GI].
    assert (LI : forall i l b, In (i, l) (group on_terminal acts) -> In b l -> a_item b = i) by (intros i l b G B; apply GI in G; destruct G as [-> _]; apply for_item_in in B; apply B).
    destruct (fold_groups (attribute_resolve closure attribute q) (att_drops q) (att_adds q) (fun i l a X => proj1 X) (fun i l a X => proj1 X) (fun s g => att_resolve_sorted q s g) (group on_terminal acts) (fun s i l a G SS => att_resolve_in q s i l a (fun b => LI i l b G) SS) MS acts SA) as [S I]. split; [exact S|]. intros a. unfold attribute_rewrite. rewrite I. clear I S.
    assert (AC : forall i r, r <> NotSpecified -> (is_terminal i = true /\ active q i (for_item on_terminal i acts) r) <-> conflict_on attribute (closure q) acts i r).
    { intros i r NR. unfold active, conflict_on. rewrite terminal_spec. assert (RE : resolution closure attribute q i = r <-> resolved attribute i (closure q) r) by (rewrite resolved_spec; unfold resolution; fold (resolve_step i); split; congruence).
      assert (EX : forall (f : action -> bool) (P : action -> Prop), (forall x, f x = true <-> P x) -> (exists s, i = ITerm s) -> (length (filter f (for_item on_terminal i acts)) <> 0%nat <-> exists b, In b acts /\ a_item b = i /\ P b)).
      { intros f P FP (s & TI). split.
        - intros N. destruct (filter f (for_item on_terminal i acts)) as [|b ?] eqn:E; [cbn in N; congruence|]. assert (B : In b (filter f (for_item on_terminal i acts))) by (rewrite E; left; reflexivity). apply filter_In in B. destruct B as [B FB]. apply for_item_in in B. destruct B as (B1 & _ & B2). exists b. split; [exact B1|]. split; [exact B2|apply FP, FB].
        - intros (b & B1 & B2 & B3) N. pose proof (proj1 (filter_none _ _) N b) as X. rewrite (proj2 (FP b) B3) in X. discriminate X. apply for_item_in. split; [exact B1|]. split; [|exact B2]. unfold on_terminal. rewrite B2, TI. reflexivity. }
      assert (ND : NoDup (for_item on_terminal i acts)) by (apply NoDup_filter, sorted_nodup, SA).
      assert (ONE : (exists s, i = ITerm s) -> (length (filter is_reduce (for_item on_terminal i acts)) <= 1)%nat <-> forall a b, In a acts -> In b acts -> a_item a = i -> a_item b = i -> a_type a = Reduce -> a_type b = Reduce -> a = b).
      { intros (s & TI). rewrite (filter_le1 _ _ ND). setoid_rewrite for_item_in. setoid_rewrite reduce_spec. unfold on_terminal. split.
        - intros H x y X Y EX1 EY TX TY. apply H; auto; [rewrite EX1, TI|rewrite EY, TI]; auto.
        - intros H x y (X & _ & EX1) (Y & _ & EY) TX TY. apply H; auto. }
      split.
      - intros (TI & L2 & NS & NR' & E & _ & O). split; [exact TI|]. split; [apply (EX _ _ any_shift_spec TI), NS|]. split; [apply (EX _ _ reduce_spec TI), NR'|]. split; [apply RE, E|]. destruct O as [O|O]; [right; apply (ONE TI), O|left; exact O].
      - intros (TI & NS & NR' & E & O). apply (EX _ _ any_shift_spec TI) in NS. apply (EX _ _ reduce_spec TI) in NR'. split; [exact TI|]. split.
        + pose proof (filter_two is_any_shift is_reduce (for_item on_terminal i acts)) as F2. assert (length (filter is_any_shift (for_item on_terminal i acts)) + length (filter is_reduce (for_item on_terminal i acts)) <= length (for_item on_terminal i acts))%nat; [|lia]. apply F2. intros x X Y. apply any_shift_spec in X. apply reduce_spec in Y. destruct X; congruence.
        + split; [exact NS|]. split; [exact NR'|]. split; [apply RE, E|]. split; [exact NR|]. destruct O as [O|O]; [right; exact O|left; apply (ONE TI), O]. }
    assert (TG : forall i l, In (i, l) (group on_terminal acts) -> l = for_item on_terminal i acts /\ is_terminal i = true).
    { intros i l G. apply GI in G. destruct G as [-> NE]. split; [reflexivity|]. destruct (for_item on_terminal i acts) as [|b ?] eqn:E; [congruence|]. assert (B : In b (for_item on_terminal i acts)) by (rewrite E; left; reflexivity). apply for_item_in in B. destruct B as (_ & B & <-). exact B. }
    assert (GT : forall a, In a acts -> is_terminal (a_item a) = true -> In (a_item a, for_item on_terminal (a_item a) acts) (group on_terminal acts) /\ In a (for_item on_terminal (a_item a) acts)).
    { intros b B T. assert (X : In b (for_item on_terminal (a_item b) acts)) by (apply for_item_in; auto). split; [|exact X]. apply GI. split; [reflexivity|]. intros E. rewrite E in X. destruct X. }
    assert (DE : In a acts -> (exists i l, In (i, l) (group on_terminal acts) /\ att_drops q i l a) <-> exists r, r <> NotSpecified /\ conflict_on attribute (closure q) acts (a_item a) r /\ dropped_by r a).
    { intros IA. split.
      - intros (i & l & G & E & r & A & AL & D). destruct (TG _ _ G) as [-> TI]. subst i. exists r. assert (NR : r <> NotSpecified) by apply A. split; [exact NR|]. split; [apply AC; auto|exact D].
      - intros (r & NR & C & D). apply (AC _ _ NR) in C. destruct C as [T A]. destruct (GT _ IA T) as [G AL]. exists (a_item a), (for_item on_terminal (a_item a) acts). split; [exact G|]. split; [reflexivity|]. exists r. auto. }
    assert (NE : (exists i l, In (i, l) (group on_terminal acts) /\ att_adds q i l a) <-> exists b, In b acts /\ a_type b = Reduce /\ conflict_on attribute (closure q) acts (a_item b) ResolveWeak /\ weakened b a).
    { split.
      - intros (i & l & G & E & A & b & B & T & W). destruct (TG _ _ G) as [-> TI]. pose proof B as B'. apply for_item_in in B'. destruct B' as (B1 & _ & B2). exists b. split; [exact B1|]. split; [exact T|]. split; [|exact W]. rewrite B2. apply AC; [discriminate|auto].
      - intros (b & B & T & C & W). apply AC in C; [|discriminate]. destruct C as [TI A]. destruct (GT _ B TI) as [G AL]. exists (a_item b), (for_item on_terminal (a_item b) acts). split; [exact G|]. split; [rewrite W; reflexivity|]. split; [exact A|]. exists b. auto. }
    rewrite NE. split.
    - intros [[IA NX]|(b & B & T & C & W)]; [|eapply attribute_weaker; eassumption]. apply attribute_kept; [exact IA| | |]; intros [T C]; apply NX, (DE IA); eexists; (split; [|split; [exact C|exact T]]); discriminate.
    - intros [IA N1 N2 N3|b B T C W]; [|right; exists b; auto]. left. split; [exact IA|]. intros X. apply (DE IA) in X. destruct X as (r & NR & C & D). destruct r; cbn in D; [congruence|apply N1; auto|apply N2; auto|apply N3; auto].
  Qed.
End Attributes.

(** ** Reduce/reduce conflicts that LR(1) does not have *)
Section Lr1.
  Context (state_looks : Z -> list (lr0 * iset)) (sources : Z -> nat -> item -> list (Z * nat)).
  Context (LO : forall q k la, In (k, la) (state_looks q) -> set_ok la).
  Lemma target_states_in k from t : In t (target_states state_looks k from) <-> exists m k' la' rest, In (t, m) from /\ nth_error (state_looks t) m = Some (k', la') /\ after_dot k' = r_nonterminal (l_rule k) :: rest.
  Proof.
    unfold target_states. assert (X : forall from ts, In t (fold_left (fun ts '(q, n) => match nth_error (state_looks q) n with None => ts | Some (k', _) => match after_dot k' with [] => ts | j :: _ => if item_eqb j (r_nonterminal (l_rule k)) then sins Z.ltb q ts else ts end end) from ts) <-> In t ts \/ exists m k' la' rest, In (t, m) from /\ nth_error (state_looks t) m = Some (k', la') /\ after_dot k' = r_nonterminal (l_rule k) :: rest).
    2:{ rewrite X. cbn. tauto. }
    clear from. induction from as [|[q n] from IH]; intros ts; cbn [fold_left]; [split; [auto|]; intros [I|(? & ? & ? & ? & [] & _)]; exact I|]. rewrite IH.
    assert (SK : (forall k' la' rest, nth_error (state_looks q) n = Some (k', la') -> after_dot k' = r_nonterminal (l_rule k) :: rest -> False) -> (In t ts \/ exists m k' la' rest, In (t, m) from /\ nth_error (state_looks t) m = Some (k', la') /\ after_dot k' = r_nonterminal (l_rule k) :: rest) <-> (In t ts \/ exists m k' la' rest, In (t, m) ((q, n) :: from) /\ nth_error (state_looks t) m = Some (k', la') /\ after_dot k' = r_nonterminal (l_rule k) :: rest)).
    { intros NX. split; (intros [I|(m & k' & la' & rest & I & R)]; [auto|]).
      - right. exists m, k', la', rest. split; [right; exact I|exact R].
      - destruct I as [E|I]; [injection E as -> ->; destruct R as [R1 R2]; destruct (NX _ _ _ R1 R2)|]. right. exists m, k', la', rest. auto. }
    destruct (nth_error (state_looks q) n) as [[k' la']|] eqn:E; [|apply SK; intros; discriminate]. destruct (after_dot k') as [|j rest] eqn:A; [apply SK; intros k0 l0 r0 X Y; injection X as <- <-; congruence|].
    destruct (item_eqb j (r_nonterminal (l_rule k))) eqn:EJ.
    - apply item_eqb_spec in EJ. subst j. rewrite (sins_in _ Zltb_strict). split.
      + intros [[-> |I]|(m & k0 & l0 & r0 & I & R)]; [right; exists n, k', la', rest; split; [left; reflexivity|auto]|auto|right; exists m, k0, l0, r0; split; [right; exact I|exact R]].
      + intros [I|(m & k0 & l0 & r0 & [X|I] & R)]; [auto|injection X as -> ->; auto|right; exists m, k0, l0, r0; auto].
    - apply SK. intros k0 l0 r0 X Y. injection X as <- <-. rewrite A in Y. injection Y as -> ->. assert (Y : item_eqb (r_nonterminal (l_rule k)) (r_nonterminal (l_rule k)) = true) by (apply item_eqb_spec; reflexivity). congruence.
  Qed.
  Lemma target_states_sorted k from : ssorted Z.ltb (target_states state_looks k from).
  Proof.
    unfold target_states. assert (X : forall from ts, ssorted Z.ltb ts -> ssorted Z.ltb (fold_left (fun ts '(q, n) => match nth_error (state_looks q) n with None => ts | Some (k', _) => match after_dot k' with [] => ts | j :: _ => if item_eqb j (r_nonterminal (l_rule k)) then sins Z.ltb q ts else ts end end) from ts)); [|apply X; constructor].
    clear from. induction from as [|[q n] from IH]; intros ts S; cbn [fold_left]; [exact S|]. apply IH. destruct (nth_error _ _) as [[k' ?]|]; [|exact S]. destruct (after_dot k'); [exact S|]. destruct (item_eqb _ _); [apply (sins_sorted _ Zltb_strict _ S)|exact S].
  Qed.
  Lemma disjoint_spec l : forall used, ssorted Z.ltb used -> ssorted Z.ltb l ->
    match disjoint used l with
    | Some u => ssorted Z.ltb u /\ (forall t, In t l -> ~ In t used) /\ forall t, In t u <-> In t used \/ In t l
    | None => exists t, In t l /\ In t used
    end.
  Proof.
    induction l as [|q l IH]; intros used SU SL; cbn [disjoint]; [split; [exact SU|]; split; [intros t []|]; intros t; cbn; tauto|]. apply ssorted_cons in SL. destruct SL as [SL LT]. destruct (smem Z.ltb q used) eqn:M.
    - apply (smem_in _ Zltb_strict _ SU) in M. exists q. split; [left; reflexivity|exact M].
    - assert (NM : ~ In q used) by (intros X; apply (smem_in _ Zltb_strict _ SU) in X; congruence). specialize (IH (sins Z.ltb q used) (sins_sorted _ Zltb_strict _ SU q) SL). destruct (disjoint (sins Z.ltb q used) l) as [u|].
      + destruct IH as (S & D & I). split; [exact S|]. split.
        * intros t [<- |T]; [exact NM|]. intros X. apply (D t T), (sins_in _ Zltb_strict). auto.
        * intros t. rewrite I, (sins_in _ Zltb_strict). cbn. intuition.
      + destruct IH as (t & T & X). apply (sins_in _ Zltb_strict) in X. exists t. split; [right; exact T|]. destruct X as [-> |X]; [|exact X]. apply LT in T. rewrite Z.ltb_irrefl in T. discriminate T.
  Qed.
  Section Targets.
    Context (q : Z) (x : item).
    Definition returns (l : list (lr0 * iset)) (n n' : nat) (t : Z) : Prop :=
      (n <= n')%nat /\ exists k la, nth_error l (n' - n) = Some (k, la) /\ after_dot k = [] /\ In x la /\ In t (target_states state_looks k (sources q n' x)).
    Lemma can_resolve_spec l : (forall k la, In (k, la) l -> set_ok la) -> forall n used, ssorted Z.ltb used ->
      can_resolve used (item_targets state_looks sources q x n l) = true <-> (forall n' t, returns l n n' t -> ~ In t used) /\ forall n1 n2 t, returns l n n1 t -> returns l n n2 t -> n1 = n2.
    Proof.
      induction l as [|[k la] l IH]; intros OK n used SU.
      - cbn. split; [intros _|reflexivity]. split; [intros n' t (_ & k & la & E & _)|intros n1 n2 t (_ & k & la & E & _)]; destruct (_ - _)%nat; discriminate E.
      - assert (OK' : forall k la, In (k, la) l -> set_ok la) by (intros k0 l0 I; apply (OK k0); right; exact I).
        assert (RS : forall n' t, returns l (S n) n' t -> returns ((k, la) :: l) n n' t).
        { intros n' t (LE & k0 & la0 & E & R). split; [lia|]. exists k0, la0. replace (n' - n)%nat with (S (n' - S n)) by lia. auto. }
        assert (RI : forall n' t, returns ((k, la) :: l) n n' t -> returns l (S n) n' t \/ (n' = n /\ after_dot k = [] /\ In x la /\ In t (target_states state_looks k (sources q n x)))).
        { intros n' t (LE & k0 & la0 & E & R). destruct (Nat.eq_dec n' n) as [-> |NE]; [right; rewrite Nat.sub_diag in E; injection E as <- <-; auto|]. left. split; [lia|]. exists k0, la0. replace (n' - n)%nat with (S (n' - S n)) in E by lia. auto. }
        assert (RH : forall t, after_dot k = [] -> In x la -> In t (target_states state_looks k (sources q n x)) -> returns ((k, la) :: l) n n t) by (intros t A X T; split; [lia|]; exists k, la; rewrite Nat.sub_diag; auto).
        cbn [item_targets]. assert (AE : at_end k && icontains la x = true <-> after_dot k = [] /\ In x la) by (rewrite andb_true_iff, at_end_spec, (icontains_in _ _ (OK k la (or_introl eq_refl))); reflexivity).
        destruct (at_end k && icontains la x).
        + destruct (proj1 AE eq_refl) as [A X]. cbn [can_resolve]. pose proof (disjoint_spec (target_states state_looks k (sources q n x)) used SU (target_states_sorted k _)) as DS. destruct (disjoint used _) as [u|].
          * destruct DS as (SU' & D & I). rewrite (IH OK' (S n) u SU'). split.
            -- intros [H1 H2]. split.
               ++ intros n' t R. apply RI in R. destruct R as [R|(-> & _ & _ & T)]; [|apply D, T]. intros U. apply (H1 n' t R), I. auto.
               ++ intros n1 n2 t R1 R2. apply RI in R1. apply RI in R2. destruct R1 as [R1|(-> & _ & _ & T1)], R2 as [R2|(-> & _ & _ & T2)]; [eapply H2; eassumption| | |reflexivity]; exfalso; [apply (H1 _ _ R1), I|apply (H1 _ _ R2), I]; auto.
            -- intros [H1 H2]. split; [|intros n1 n2 t R1 R2; eapply H2; apply RS; eassumption]. intros n' t R U. apply I in U. destruct U as [U|U]; [exact (H1 _ _ (RS _ _ R) U)|]. assert (n' = n) by (eapply H2; [apply RS, R|apply RH; assumption]). destruct R as [LE _]. lia.
          * destruct DS as (t & T & U). split; [discriminate|]. intros [H1 _]. exfalso. exact (H1 n t (RH t A X T) U).
        + rewrite (IH OK' (S n) used SU). split; intros [H1 H2].
          * split; [intros n' t R; apply RI in R; destruct R as [R|(_ & A & X & _)]; [eapply H1; exact R|]|intros n1 n2 t R1 R2; apply RI in R1; apply RI in R2; destruct R1 as [R1|(_ & A & X & _)]; [destruct R2 as [R2|(_ & A & X & _)]; [eapply H2; eassumption|]|]]; exfalso; assert (Y : false = true) by (apply AE; auto); discriminate Y.
          * split; [intros n' t R; eapply H1; apply RS; exact R|intros n1 n2 t R1 R2; eapply H2; apply RS; eassumption].
    Qed.
    Lemma told_apart_spec : can_resolve [] (item_targets state_looks sources q x 0 (state_looks q)) = true <-> told_apart state_looks sources q x.
    Proof.
      rewrite (can_resolve_spec _ (LO q) 0%nat [] (SSorted_nil _)). assert (R : forall n t, returns (state_looks q) 0 n t <-> returns_to state_looks sources q n x t).
      { intros n t. unfold returns, returns_to. rewrite Nat.sub_0_r. split.
        - intros (_ & k & la & E & A & X & T). apply target_states_in in T. destruct T as (m & k' & la' & rest & T1 & T2 & T3). exists k, la, m, k', la', rest. auto 6.
        - intros (k & la & m & k' & la' & rest & E & A & X & T1 & T2 & T3). split; [lia|]. exists k, la. repeat (split; [assumption|]). apply target_states_in. eauto 8. }
      unfold told_apart. split.
      - intros [_ H] n n' t R1 R2. eapply H; apply R; eassumption.
      - intros H. split; [intros n' t _ []|]. intros n1 n2 t R1 R2. eapply H; apply R; eassumption.
    Qed.
  End Targets.
  Lemma weaken_sorted l : forall s, asorted s -> asorted (fold_left (fun acts a => ainsert (with_type WeakReduce a) (aerase a acts)) l s).
  Proof. induction l as [|b l IH]; intros s SS; cbn [fold_left]; [exact SS|]. apply IH, ainsert_sorted, aerase_sorted, SS. Qed.
  Lemma weaken_all l : forall s, asorted s -> (forall b, In b l -> a_type b = Reduce) -> let s' := fold_left (fun acts a => ainsert (with_type WeakReduce a) (aerase a acts)) l s in
    asorted s' /\ forall a, In a s' <-> (In a s /\ ~ In a l) \/ exists b, In b l /\ weakened b a.
  Proof.
    induction l as [|b l IH]; intros s SS TL; cbn zeta; [cbn; split; [exact SS|]; intros a; split; [intros I; left; split; [exact I|tauto]|]; intros [[I _]|(b & [] & _)]; exact I|]. cbn [fold_left].
    destruct (IH (ainsert (with_type WeakReduce b) (aerase b s)) (ainsert_sorted _ _ (aerase_sorted _ _ SS)) (fun c C => TL c (or_intror C))) as [S1 I1]. split; [exact S1|]. intros a. rewrite I1, ainsert_in, (aerase_in _ _ _ SS). split.
    - intros [[[-> |[I NE]] NL]|(c & C & W)]; [right; exists b; split; [left; reflexivity|reflexivity]|left; split; [exact I|]; intros [X|X]; [congruence|contradiction]|right; exists c; split; [right; exact C|exact W]].
    - intros [[I NL]|(c & [<- |C] & W)]; [left; split; [right; split; [exact I|]; intros ->; apply NL; left; reflexivity|]; intros X; apply NL; right; exact X| |right; exists c; auto]. left. split; [left; exact W|]. intros X. apply (fun H => TL a (or_intror H)) in X. rewrite W in X. discriminate X.
  Qed.
  Definition lr1_keep (a : action) : bool := is_reduce a && on_terminal a.
  Definition lr1_drops (q : Z) (i : item) (l : list action) (a : action) : Prop := a_item a = i /\ In a (tl l) /\ told_apart state_looks sources q i.
  Definition lr1_adds (q : Z) (i : item) (l : list action) (a : action) : Prop := a_item a = i /\ told_apart state_looks sources q i /\ exists b, In b (tl l) /\ weakened b a.
  Lemma lr1_resolve_spec q s i l : (told_apart state_looks sources q i -> tl l = []) /\ lr1_resolve state_looks sources q s (i, l) = s \/ told_apart state_looks sources q i /\ lr1_resolve state_looks sources q s (i, l) = fold_left (fun acts a => ainsert (with_type WeakReduce a) (aerase a acts)) (tl l) s.
  Proof.
    unfold lr1_resolve. pose proof (told_apart_spec q i) as T. destruct (Nat.ltb_spec (length l) 2) as [L|L]; [left; split; [|reflexivity]; intros _; destruct l as [|? [|? ?]]; cbn in L; try reflexivity; lia|].
    destruct (can_resolve [] _); [right; split; [apply T; reflexivity|reflexivity]|]. left. split; [|reflexivity]. intros X. apply T in X. discriminate X.
  Qed.
  Lemma lr1_exact q acts : asorted acts -> asorted (lr1_rewrite state_looks sources q acts) /\ forall a, In a (lr1_rewrite state_looks sources q acts) <-> with_lr1 state_looks sources q acts a.
  Proof.
    intros SA. destruct (group_spec lr1_keep acts) as [MS GI].
    assert (KS : forall a, lr1_keep a = true <-> a_type a = Reduce /\ exists s, a_item a = ITerm s) by (intros a; unfold lr1_keep, on_terminal; rewrite andb_true_iff, reduce_spec, terminal_spec; reflexivity).
    assert (LI : forall i l b, In (i, l) (group lr1_keep acts) -> In b l -> a_item b = i /\ a_type b = Reduce) by (intros i l b G B; apply GI in G; destruct G as [-> _]; apply for_item_in in B; destruct B as (_ & K & E); apply KS in K; split; [exact E|apply K]).
    assert (TLI : forall (l : list action) b, In b (tl l) -> In b l) by (intros [|c l] b B; [destruct B|right; exact B]).
    assert (FI : forall s i l a, In (i, l) (group lr1_keep acts) -> asorted s -> In a (lr1_resolve state_looks sources q s (i, l)) <-> (In a s /\ ~ lr1_drops q i l a) \/ lr1_adds q i l a).
    { intros s i l a G SS. destruct (lr1_resolve_spec q s i l) as [[NT ->]|[T ->]].
      - split; [intros I; left; split; [exact I|]; intros (_ & X & T); rewrite (NT T) in X; destruct X|]. intros [[I _]|(_ & T & b & X & _)]; [exact I|]. rewrite (NT T) in X. destruct X.
      - destruct (weaken_all (tl l) s SS) as [_ I]; [intros b B; exact (proj2 (LI _ _ _ G (TLI _ _ B)))|]. rewrite I. split.
        + intros [[IS NX]|(b & B & W)]; [left; split; [exact IS|]; intros (_ & X & _); contradiction|]. right. split; [rewrite W; cbn; apply (LI _ _ _ G (TLI _ _ B))|]. split; [exact T|]. exists b. auto.
        + intros [[IS NX]|(_ & _ & R)]; [left; split; [exact IS|]; intros X; apply NX; split; [apply (LI _ _ _ G (TLI _ _ X))|auto]|right; exact R]. }
    assert (FSO : forall s g, asorted s -> asorted (lr1_resolve state_looks sources q s g)) by (intros s [i l] SS; destruct (lr1_resolve_spec q s i l) as [[_ ->]|[T ->]]; [exact SS|apply weaken_sorted, SS]).
    destruct (fold_groups (lr1_resolve state_looks sources q) (lr1_drops q) (lr1_adds q) (fun i l a X => proj1 X) (fun i l a X => proj1 X) FSO (group lr1_keep acts) FI MS acts SA) as [S I]. split; [exact S|]. intros a. unfold lr1_rewrite. change (fun a => is_reduce a && on_terminal a) with lr1_keep. rewrite I. clear I S.
    assert (TL : forall (l : list action), asorted l -> forall b, In b (tl l) <-> In b l /\ exists c, In c l /\ action_ltb c b = true).
    { intros [|c l] SL b; [cbn; split; [intros []|intros [[] _]]|]. apply ssorted_cons in SL. destruct SL as [SL LT]. cbn [tl]. split; [intros B; split; [right; exact B|]; exists c; split; [left; reflexivity|apply LT, B]|]. intros [[<- |B] (d & D & X)]; [|exact B]. exfalso. destruct D as [<- |D]; [rewrite (st_irrefl _ action_strict) in X; discriminate X|]. apply LT in D. rewrite (ltb_asym _ action_strict _ _ D) in X. discriminate X. }
    assert (LR : forall b, (exists i l, In (i, l) (group lr1_keep acts) /\ In b (tl l)) <-> later_reduce acts b).
    { intros b. split.
      - intros (i & l & G & B). apply GI in G. destruct G as [-> _]. apply TL in B; [|apply filter_sorted, SA]. destruct B as [B (c & C & X)]. apply for_item_in in B. destruct B as (B1 & B2 & B3). apply for_item_in in C. destruct C as (C1 & C2 & C3). apply KS in B2. apply KS in C2. split; [exact B1|]. split; [apply B2|]. split; [apply B2|]. exists c. split; [exact C1|]. split; [apply C2|]. split; [congruence|exact X].
      - intros (B & T & TI & c & C & TC & EC & X). assert (KB : In b (for_item lr1_keep (a_item b) acts)) by (apply for_item_in; split; [exact B|]; split; [apply KS; auto|reflexivity]). exists (a_item b), (for_item lr1_keep (a_item b) acts). split; [apply GI; split; [reflexivity|]; intros E; rewrite E in KB; destruct KB|]. apply TL; [apply filter_sorted, SA|]. split; [exact KB|]. exists c. split; [|exact X]. apply for_item_in. split; [exact C|]. split; [apply KS; rewrite EC; auto|exact EC]. }
    split.
    - intros [[IA NX]|(i & l & G & E & T & b & B & W)].
      + apply lr1_kept; [exact IA|]. intros [L T]. apply NX. apply LR in L. destruct L as (i & l & G & X). exists i, l. assert (E : a_item a = i) by apply (LI _ _ _ G (TLI _ _ X)). split; [exact G|]. split; [exact E|]. split; [exact X|]. rewrite <- E. exact T.
      + apply lr1_weaker with b; [apply LR; eauto| |exact W]. rewrite (proj1 (LI _ _ _ G (TLI _ _ B))). exact T.
    - intros [IA NX|b L T W].
      + left. split; [exact IA|]. intros (i & l & G & E & X & T). apply NX. split; [apply LR; eauto|rewrite E; exact T].
      + right. apply LR in L. destruct L as (i & l & G & X). exists i, l. assert (E : a_item b = i) by apply (LI _ _ _ G (TLI _ _ X)). split; [exact G|]. split; [rewrite W; exact E|]. split; [rewrite <- E; exact T|]. exists b. auto.
  Qed.
End Lr1.
