(** Proofs about the parser actions of a state. *)
From Verif Require Import Base OrdMap GrammarModel GrammarProofs FirstModel FirstProofs LrItemModel LrItemProofs ClosureModel ClosureSpec ClosureProofs MachineModel MachineProofs BuilderModel BuilderSpec BuilderProofs ActionModel ActionSpec.
Local Open Scope Z_scope.

(** Lexicographic orders *)
Definition lex2 {A B} (la : A -> A -> bool) (lb : B -> B -> bool) (x y : A * B) : bool :=
  if la (fst x) (fst y) then true else if la (fst y) (fst x) then false else lb (snd x) (snd y).
Lemma lex2_strict {A B} (la : A -> A -> bool) (lb : B -> B -> bool) : strict_total la -> strict_total lb -> strict_total (lex2 la lb).
Proof.
  intros SA SB. unfold lex2. constructor.
  - intros [a b]. cbn. rewrite (st_irrefl _ SA). apply (st_irrefl _ SB).
  - intros [a1 b1] [a2 b2] [a3 b3]. cbn. destruct (la a1 a2) eqn:E1; [intros _|destruct (la a2 a1) eqn:E2; [discriminate|]; apply (ltb_eq _ SA) in E2; [subst a2|exact E1]].
    + destruct (la a2 a3) eqn:E3; [|destruct (la a3 a2) eqn:E4; [discriminate|]]; intros _; [rewrite (st_trans _ SA _ _ _ E1 E3); reflexivity|]. rewrite <- (ltb_eq _ SA _ _ E3 E4), E1. reflexivity.
    + intros B1. destruct (la a1 a3); [reflexivity|]. destruct (la a3 a1); [auto|]. intros B2. exact (st_trans _ SB _ _ _ B1 B2).
  - intros [a1 b1] [a2 b2]. cbn. destruct (st_total _ SA a1 a2) as [->|[E|E]].
    + rewrite (st_irrefl _ SA). destruct (st_total _ SB b1 b2) as [->|[F|F]]; auto.
    + rewrite E. auto.
    + rewrite E, (ltb_asym _ SA _ _ E). auto.
Qed.
Lemma map_strict {A B} (f : A -> B) (lb : B -> B -> bool) : strict_total lb -> (forall a b, f a = f b -> a = b) -> strict_total (fun a b => lb (f a) (f b)).
Proof.
  intros S I. constructor.
  - intros a. apply (st_irrefl _ S).
  - intros a b c. apply (st_trans _ S).
  - intros a b. destruct (st_total _ S (f a) (f b)) as [E|E]; auto.
Qed.
Lemma strict_ext {A} (l l' : A -> A -> bool) : (forall a b, l a b = l' a b) -> strict_total l -> strict_total l'.
Proof. intros E S. constructor; intros; repeat rewrite <- E in *; [apply (st_irrefl _ S)|eapply (st_trans _ S); eassumption|apply (st_total _ S)]. Qed.
Lemma type_number_inj a b : type_number a = type_number b -> a = b.
Proof. destruct a, b; cbn; intros H; try reflexivity; discriminate H. Qed.
Lemma action_strict : strict_total action_ltb.
Proof.
  pose proof (lex2_strict _ _ item_strict (lex2_strict _ _ (map_strict type_number _ Zltb_strict type_number_inj) (lex2_strict _ _ Zltb_strict rule_strict))) as S.
  apply (map_strict (fun a => (a_item a, (a_type a, (a_next a, a_rule a))))) in S; [|intros [? ? ? ?] [? ? ? ?]; cbn; congruence].
  eapply strict_ext; [|exact S]. intros a b. unfold action_ltb, lex2. cbn [fst snd]. reflexivity.
Qed.
Lemma ainsert_in a b s : In a (ainsert b s) <-> a = b \/ In a s.
Proof. apply sins_in, action_strict. Qed.
Lemma ainsert_sorted b s : ssorted action_ltb s -> ssorted action_ltb (ainsert b s).
Proof. intros S. apply sins_sorted; [apply action_strict|exact S]. Qed.

Lemma at_end_spec k : at_end k = true <-> after_dot k = [].
Proof. unfold at_end, after_dot. rewrite Nat.leb_le. split; [apply skipn_all2|]. intros E. apply (f_equal (@length _)) in E. rewrite skipn_length in E. cbn in E. lia. Qed.

Section Actions.
  Context (rid : rule -> Z) (RI : injective rid) (first_of : item -> iset) (FO : forall i, set_ok (first_of i)) (rules : Z -> list (list item)).

  Lemma begins_cons i l x : begins first_of (i :: l) x <-> x <> IEmpty /\ In x (first_of i) \/ In IEmpty (first_of i) /\ begins first_of l x.
  Proof.
    split.
    - intros (p & y & q & E & S & X & N). destruct p as [|i' p]; cbn in E; injection E as <- ->; [auto|]. right. split; [apply S; left; reflexivity|]. exists p, y, q. split; [reflexivity|]. split; [intros j Hj; apply S; right; exact Hj|auto].
    - intros [[N X]|[E (p & y & q & -> & S & X & N)]]; [exists [], i, l; split; [reflexivity|]; split; [intros j []|auto]|]. exists (i :: p), y, q. split; [reflexivity|]. split; [intros j [<-|Hj]; [exact E|apply S, Hj]|auto].
  Qed.
  Lemma begins_nil x : ~ begins first_of [] x.
  Proof. intros (p & y & q & E & _). destruct p; discriminate E. Qed.
  Lemma items_first_in l : forall res x, set_ok res -> x <> IEmpty -> In x (items_first first_of l res) <-> In x res \/ begins first_of l x.
  Proof.
    induction l as [|i l IH]; intros res x OK N; cbn [items_first].
    - rewrite iinsert_in. pose proof (begins_nil x). tauto.
    - assert (OK' : set_ok (imerge (ierase IEmpty res) (first_of i))) by (apply imerge_ok, ierase_ok, OK). assert (EI : In IEmpty (imerge (ierase IEmpty res) (first_of i)) <-> In IEmpty (first_of i)) by (rewrite imerge_in, ierase_in by exact OK; tauto).
      rewrite begins_cons. destruct (icontains (imerge (ierase IEmpty res) (first_of i)) IEmpty) eqn:C.
      + apply icontains_in in C; [|exact OK']. apply EI in C. rewrite IH by assumption. rewrite imerge_in, ierase_in by exact OK. tauto.
      + apply icontains_not in C; [|exact OK']. rewrite EI in C. rewrite imerge_in, ierase_in by exact OK. tauto.
  Qed.
  Lemma rule_first_in l x : x <> IEmpty -> In x (rule_first first_of l) <-> begins first_of l x.
  Proof.
    intros N. unfold rule_first. destruct l as [|i l]; [split; [intros [E|[]]; congruence|intros B; destruct (begins_nil x B)]|]. rewrite items_first_in; [cbn [In]; tauto|constructor|exact N].
  Qed.
  Lemma merge_all_in rec gs : forall res s, merge_all rec gs res = Some s -> (forall g, In g gs -> exists r, rec g = Some r) /\ forall x, In x s <-> In x res \/ exists g r, In g gs /\ rec g = Some r /\ In x r.
  Proof.
    induction gs as [|g gs IH]; intros res s H; cbn [merge_all] in H.
    - injection H as <-. split; [intros g []|]. intros x. split; [auto|intros [X|(g & r & [] & _)]; exact X].
    - destruct (rec g) as [r|] eqn:E; [|discriminate H]. apply IH in H. destruct H as [T H]. split; [intros g' [<-|X]; [eauto|apply T, X]|]. intros x. rewrite H, imerge_in. split.
      + intros [[X|X]|(g' & r' & G & R & X)]; [auto|right; exists g, r; cbn; auto|right; exists g', r'; cbn; auto].
      + intros [X|(g' & r' & [<-|G] & R & X)]; [auto| |right; eauto]. rewrite E in R. injection R as <-. auto.
  Qed.
  Lemma initial_in fuel : forall i s, initial first_of fuel i = Some s -> forall x, x <> IEmpty -> In x s <-> can_start first_of (guard_items i) x.
  Proof.
    induction fuel as [|fuel IH]; intros i s H x N; cbn [initial] in H; [discriminate H|]. apply merge_all_in in H. destruct H as [T H]. rewrite H. split.
    - intros [X|(g & r & G & R & X)].
      + apply rule_first_in in X; [|exact N]. constructor. exact X.
      + apply in_rev, filter_In in G. destruct G as [G IG]. destruct g as [| | | | |p l|]; try discriminate IG. apply (IH _ _ R) in X; [|exact N]. apply rule_first_in in G; [|discriminate]. eapply start_guard; [exact G|exact X].
    - intros C. inversion C as [l y B|l p g y B C']; subst; [left; apply rule_first_in; assumption|]. right. apply rule_first_in in B; [|discriminate]. assert (G : In (IGuard p g) (rev (filter is_guard (rule_first first_of (guard_items i))))) by (apply in_rev; rewrite rev_involutive; apply filter_In; auto).
      destruct (T _ G) as [r R]. exists (IGuard p g), r. split; [exact G|]. split; [exact R|]. apply (IH _ _ R); assumption.
  Qed.

  (** *** Sets of actions *)
  Lemma guard_checks_in n r init : forall s a, In a (guard_checks n r init s) <-> In a s \/ exists t, In (ITerm t) init /\ a = mkAction Guard (ITerm t) n r.
  Proof.
    unfold guard_checks. induction init as [|x init IH]; intros s a; cbn [fold_left].
    - split; [auto|intros [X|(t & [] & _)]; exact X].
    - rewrite IH. destruct x; try (split; [intros [X|(t & X & ->)]; [auto|right; exists t; cbn; auto]|intros [X|(t & [E|X] & ->)]; [auto|discriminate E|right; eauto]]).
      rewrite ainsert_in. split; [intros [[->|X]|(t & X & ->)]; [right; exists symbol; cbn; auto|auto|right; exists t; cbn; auto]|intros [X|(t & [E|X] & ->)]; [auto|injection E as <-; auto|right; eauto]].
  Qed.
  Lemma guard_checks_sorted n r init : forall s, ssorted action_ltb s -> ssorted action_ltb (guard_checks n r init s).
  Proof. unfold guard_checks. induction init as [|x init IH]; intros s S; cbn [fold_left]; [exact S|]. apply IH. destruct x; try exact S. apply ainsert_sorted, S. Qed.
  (** The checks of the guard [i] *)
  Definition check_of (guards : guard_states) (i : item) (a : action) : Prop :=
    exists p l n t, i = IGuard p l /\ mfind Z.ltb (rid (mkRule (IGuard p l) l)) guards = Some n /\ can_start first_of l (ITerm t) /\ a = mkAction Guard (ITerm t) n (mkRule (IGuard p l) l).
  Lemma add_guard_in fuel guards i s s' : add_guard rid first_of fuel guards i s = Some s' -> (ssorted action_ltb s -> ssorted action_ltb s') /\ forall a, In a s' <-> In a s \/ check_of guards i a.
  Proof.
    unfold add_guard. intros H. assert (NG : guard_rule i = None -> forall a, ~ check_of guards i a) by (intros E a (p & l & n & t & -> & _); discriminate E).
    destruct (guard_rule i) as [r|] eqn:G; [|injection H as <-; split; [auto|]; intros a; pose proof (NG eq_refl a); tauto]. destruct i as [| | | | |p l|]; try discriminate G. injection G as <-.
    destruct (mfind Z.ltb (rid (mkRule (IGuard p l) l)) guards) as [n|] eqn:F.
    - destruct (initial first_of fuel (IGuard p l)) as [init|] eqn:I; [|discriminate H]. injection H as <-. split; [apply guard_checks_sorted|]. intros a. rewrite guard_checks_in. apply or_iff_compat_l. split.
      + intros (t & X & ->). exists p, l, n, t. split; [reflexivity|]. split; [exact F|]. split; [|reflexivity]. eapply (initial_in fuel (IGuard p l)); [exact I|discriminate|exact X].
      + intros (p' & l' & n' & t & E & F' & C & ->). injection E as <- <-. rewrite F in F'. injection F' as <-. exists t. split; [|reflexivity]. eapply (initial_in fuel (IGuard p l)); [exact I|discriminate|exact C].
    - injection H as <-. split; [auto|]. intros a. split; [auto|]. intros [X|(p' & l' & n' & t & E & F' & _)]; [exact X|]. injection E as <- <-. congruence.
  Qed.
  Lemma transition_guards_in fuel guards ts : forall s s', transition_guards rid first_of fuel guards ts s = Some s' -> (ssorted action_ltb s -> ssorted action_ltb s') /\ forall a, In a s' <-> In a s \/ exists i t, In (i, t) ts /\ check_of guards i a.
  Proof.
    induction ts as [|[i t] ts IH]; intros s s' H; cbn [transition_guards] in H.
    - injection H as <-. split; [auto|]. intros a. split; [auto|intros [X|(i & t & [] & _)]; exact X].
    - destruct (add_guard rid first_of fuel guards i s) as [s1|] eqn:G; [|discriminate H]. apply add_guard_in in G. apply IH in H. destruct G as [G1 G2], H as [H1 H2]. split; [auto|]. intros a. rewrite H2, G2. split.
      + intros [[X|C]|(i' & t' & X & C)]; [auto|right; exists i, t; cbn; auto|right; exists i', t'; cbn; auto].
      + intros [X|(i' & t' & [E|X] & C)]; [auto| |right; eauto]. injection E as <- <-. auto.
  Qed.
  Lemma add_moves_in ts : forall s a, In a (add_moves ts s) <-> In a s \/ exists i t, In (i, t) ts /\ a = mkAction (move_type i) i t no_rule.
  Proof.
    unfold add_moves. induction ts as [|[i t] ts IH]; intros s a; cbn [fold_left].
    - split; [auto|intros [X|(i & t & [] & _)]; exact X].
    - rewrite IH, ainsert_in. split.
      + intros [[->|X]|(i' & t' & X & ->)]; [right; exists i, t; cbn; auto|auto|right; exists i', t'; cbn; auto].
      + intros [X|(i' & t' & [E|X] & ->)]; [auto| |right; eauto]. injection E as <- <-. auto.
  Qed.
  Lemma add_moves_sorted ts : forall s, ssorted action_ltb s -> ssorted action_ltb (add_moves ts s).
  Proof. unfold add_moves. induction ts as [|[i t] ts IH]; intros s S; cbn [fold_left]; [exact S|]. apply IH, ainsert_sorted, S. Qed.
  Lemma add_reduces_in fuel guards r la : forall s s', add_reduces rid first_of fuel guards r la s = Some s' -> (ssorted action_ltb s -> ssorted action_ltb s') /\
    forall a, In a s' <-> In a s \/ exists x, In x la /\ (check_of guards x a \/ reduces_on x = true /\ a = mkAction (reduce_type r) x (-1) r).
  Proof.
    induction la as [|x la IH]; intros s s' H; cbn [add_reduces] in H.
    - injection H as <-. split; [auto|]. intros a. split; [auto|intros [X|(x & [] & _)]; exact X].
    - assert (NC : reduces_on x = false -> forall a, ~ check_of guards x a) by (intros E a (p & l & n & t & -> & _); discriminate E). destruct (reduces_on x) eqn:R.
      + destruct (add_guard rid first_of fuel guards x s) as [s1|] eqn:G; [|discriminate H]. apply add_guard_in in G. apply IH in H. destruct G as [G1 G2], H as [H1 H2]. split; [intros S; apply H1, ainsert_sorted; auto|]. intros a. rewrite H2, ainsert_in, G2. split.
        * intros [[->|[X|C]]|(y & Y & C)]; [right; exists x; cbn; auto|auto|right; exists x; cbn; auto|right; exists y; cbn; auto].
        * intros [X|(y & [<-|Y] & C)]; [auto| |right; exists y; auto]. destruct C as [C|[_ ->]]; auto.
      + apply IH in H. destruct H as [H1 H2]. split; [exact H1|]. intros a. rewrite H2. split.
        * intros [X|(y & Y & C)]; [auto|right; exists y; cbn; auto].
        * intros [X|(y & [<-|Y] & C)]; [auto| |right; exists y; auto]. destruct C as [C|[E _]]; [destruct (NC eq_refl a C)|congruence].
  Qed.
  Lemma add_reductions_in fuel guards cl : forall s s', add_reductions rid first_of fuel guards cl s = Some s' -> (ssorted action_ltb s -> ssorted action_ltb s') /\
    forall a, In a s' <-> In a s \/ exists k la x, In (k, la) cl /\ after_dot k = [] /\ In x la /\ (check_of guards x a \/ reduces_on x = true /\ a = mkAction (reduce_type (l_rule k)) x (-1) (l_rule k)).
  Proof.
    induction cl as [|[k la] cl IH]; intros s s' H; cbn [add_reductions] in H.
    - injection H as <-. split; [auto|]. intros a. split; [auto|intros [X|(k & la & x & [] & _)]; exact X].
    - pose proof (at_end_spec k) as AE. destruct (at_end k).
      + destruct (add_reduces rid first_of fuel guards (l_rule k) la s) as [s1|] eqn:G; [|discriminate H]. apply add_reduces_in in G. apply IH in H. destruct G as [G1 G2], H as [H1 H2]. split; [auto|]. intros a. rewrite H2, G2. split.
        * intros [[X|(x & X & C)]|(k' & la' & x & X & A & Y & C)]; [auto|right; exists k, la, x; cbn; intuition|right; exists k', la', x; cbn; auto].
        * intros [X|(k' & la' & x & [E|X] & A & Y & C)]; [auto| |right; exists k', la', x; auto]. injection E as <- <-. eauto.
      + apply IH in H. destruct H as [H1 H2]. split; [exact H1|]. intros a. rewrite H2. split.
        * intros [X|(k' & la' & x & X & A & Y & C)]; [auto|right; exists k', la', x; cbn; auto].
        * intros [X|(k' & la' & x & [E|X] & A & Y & C)]; [auto| |right; exists k', la', x; auto]. injection E as <- <-. apply AE in A. discriminate A.
  Qed.
  Lemma reduces_on_spec x : reduces_on x = true <-> input_symbol x.
  Proof.
    unfold input_symbol. destruct x; cbn; split; try discriminate; intros H; try reflexivity; try (destruct H as [[? H]|[H|[H|(? & ? & H)]]]; discriminate H); eauto 6.
  Qed.
  Lemma reduce_type_spec r : top_rule r /\ reduce_type r = Accept \/ ~ top_rule r /\ reduce_type r = Reduce.
  Proof.
    unfold top_rule, reduce_type. destruct (r_nonterminal r); try (right; split; [intros [H|(? & ? & H)]; discriminate H|reflexivity]); left; split; eauto.
  Qed.
  Lemma move_type_spec x : ((exists s, x = ITerm s) \/ (exists p l, x = IGuard p l)) /\ move_type x = Shift \/ ((forall s, x <> ITerm s) /\ forall p l, x <> IGuard p l) /\ move_type x = Goto.
  Proof. destruct x; cbn; eauto 6; right; repeat split; discriminate. Qed.
End Actions.
