(** C27: sets of LR(1) items.  C53: comparisons of LR items. *)
From Verif Require Import Base OrdMap GrammarModel GrammarProofs FirstModel FirstProofs LrItemModel LrItemProofs.
Local Open Scope Z_scope.

(** [inserted eq rid log s]: [s] is what insertions of the pairs in [log] make of an empty set, with
    the result of each insertion. *)
Inductive inserted (eq : iset -> iset -> bool) (rid : rule -> Z) : list (lr0 * iset * bool) -> lr1_set -> Prop :=
| inserted_none : inserted eq rid [] []
| inserted_one log s k la s' b : inserted eq rid log s -> set_ok la -> lr1_insert_with rid eq k la s = (s', b) -> inserted eq rid (log ++ [(k, la, b)]) s'.
(** What was inserted as lookahead of [k] *)
Definition given (log : list (lr0 * iset * bool)) (k : lr0) (x : item) : Prop := exists la b, In (k, la, b) log /\ In x la.
Definition asked (log : list (lr0 * iset * bool)) (k : lr0) : Prop := exists la b, In (k, la, b) log.

Lemma inserted_inv eq rid log s : injective rid -> (forall a b, eq a b = true -> a = b) -> inserted eq rid log s ->
  lr1_ok rid s /\ (forall k, lr1_mem rid k s = true <-> asked log k) /\ (forall k x, In x (look_of rid k s) <-> given log k x).
Proof.
  intros RI EQ I. induction I as [|log s k la s' b I IH SO H].
  - split; [apply lr1_ok_nil|]. split; [intros k; split; [discriminate|intros (la & b & [])]|intros k x; split; [intros []|intros (la & b & [] & _)]].
  - destruct IH as (OK & M & L). assert (E : s' = fst (lr1_insert_with rid eq k la s)) by (rewrite H; reflexivity). rewrite E. split; [apply lr1_insert_ok; assumption|]. split.
    + intros k'. rewrite lr1_insert_mem by assumption. rewrite M. unfold asked. split.
      * intros [->|(l & c & Hl)]; [exists la, b; apply in_app_iff; right; left; reflexivity|exists l, c; apply in_app_iff; auto].
      * intros (l & c & Hl). apply in_app_iff in Hl. destruct Hl as [Hl|[Hl|[]]]; [right; eauto|left; congruence].
    + intros k' x. rewrite lr1_insert_look by assumption. rewrite L. unfold given. split.
      * intros [[-> Hx]|(l & c & Hl & Hx)]; [exists la, b; split; [apply in_app_iff; right; left; reflexivity|exact Hx]|exists l, c; split; [apply in_app_iff; auto|exact Hx]].
      * intros (l & c & Hl & Hx). apply in_app_iff in Hl. destruct Hl as [Hl|[Hl|[]]]; [right; eauto|left; injection Hl as <- <- <-; auto].
Qed.
(** There is one entry for every LR(0) item inserted and no other; its lookahead is the union of all
    lookaheads inserted for the item.  The identifiers of rules are different for different rules
    (C23), and == of item sets may answer false for equal sets. *)
Theorem C27_contents : forall eq rid log s, injective rid -> (forall a b, eq a b = true -> a = b) -> inserted eq rid log s ->
  (forall k la, In (k, la) s -> asked log k /\ forall x, In x la <-> given log k x) /\
  (forall k, asked log k -> exists la, In (k, la) s) /\
  NoDup (map fst s).
Proof.
  intros eq rid log s RI EQ I. destruct (inserted_inv eq rid log s RI EQ I) as (OK & M & L). split; [|split].
  - intros k la H. split; [apply M, (mem_in rid RI _ _ OK); eauto|]. intros x. rewrite <- L, (look_of_entry rid RI k la s OK H). reflexivity.
  - intros k A. apply M in A. apply (mem_in rid RI _ _ OK) in A. exact A.
  - assert (S := lo_sorted _ _ OK). clear -S RI. induction s as [|[k la] s IH]; [constructor|]. apply msorted_cons in S. destruct S as [S H]. constructor; [|apply IH, S].
    cbn [fst] in *. intros K. apply in_map_iff in K. destruct K as ([k' la'] & E & K). cbn in E. subst k'. specialize (H _ K). cbn in H. rewrite (st_irrefl _ (lr0_strict rid RI)) in H. discriminate H.
Qed.
Print Assumptions C27_contents.
(** An insertion answers true exactly when the LR(0) item is new or its lookahead grows. *)
Theorem C27_changes : forall eq rid log s k la s' b, injective rid -> (forall a b, eq a b = true -> a = b) -> inserted eq rid log s -> set_ok la -> lr1_insert_with rid eq k la s = (s', b) ->
  b = true <-> ~ asked log k \/ exists x, In x la /\ ~ given log k x.
Proof.
  intros eq rid log s k la s' b RI EQ I SO H. destruct (inserted_inv eq rid log s RI EQ I) as (OK & M & L). pose proof (lr1_insert_grew rid RI eq k la s EQ SO OK) as G. rewrite H in G. cbn [snd] in G. rewrite G. specialize (M k).
  split; (intros [N|(x & Hx & N)]; [left|right; exists x; split; [exact Hx|]]).
  - intros A. apply M in A. congruence.
  - rewrite <- L. exact N.
  - destruct (lr1_mem rid k s); [exfalso; apply N, M; reflexivity|reflexivity].
  - rewrite L. exact N.
Qed.
Print Assumptions C27_changes.
(** Two insertions for the same LR(0) item: t1 and t2, then t2 and t3; then one that changes nothing *)
Example C27_nontrivial : let rid := rule_number in let k := mkLr0 (mkRule (INonterm 0) [ITerm 1]) 0 in let k' := mkLr0 (mkRule (INonterm 0) [ITerm 1]) 1 in
  injective rid /\ exists s, inserted looks_eqb rid ([(k, [ITerm 1; ITerm 2], true)] ++ [(k', [ITerm 5], true)] ++ [(k, [ITerm 2; ITerm 3], true)] ++ [(k, [ITerm 3], false)]) s /\ s = [(k, [ITerm 1; ITerm 2; ITerm 3]); (k', [ITerm 5])].
Proof.
  cbn zeta. split; [apply rule_number_injective|]. eexists. split; [|reflexivity]. rewrite !app_assoc. eapply inserted_one; [eapply inserted_one; [eapply inserted_one; [eapply (inserted_one _ _ []); [constructor|..]|..]|..]|..]; try reflexivity; repeat constructor.
Qed.

(** C53.  The order of LR(0) items and the order of LR(1) items are total; == is equality.  The
    operator > of LR(1) items is not the converse of <. *)
Theorem C53_orders_partial : forall rid, injective rid -> strict_total (lr0_ltb rid) /\ strict_total (lr1_ltb rid) /\ (forall a b, lr0_eqb rid a b = true <-> a = b) /\ (forall a b, lr1_eqb rid a b = true <-> a = b) /\
  (forall a b, lr1_leb rid a b = true <-> lr1_ltb rid a b = true \/ a = b) /\ (forall a b, lr1_geb rid a b = true <-> lr1_ltb rid b a = true \/ a = b).
Proof.
  intros rid RI. split; [apply lr0_strict, RI|]. split; [apply lr1_strict, RI|]. split; [apply lr0_eqb_spec, RI|]. split; [apply lr1_eqb_spec, RI|]. split; intros a b.
  - unfold lr1_leb. rewrite Bool.orb_true_iff, (lr1_eqb_spec rid RI). reflexivity.
  - unfold lr1_geb. rewrite Bool.orb_true_iff, (lr1_eqb_spec rid RI). destruct (st_total _ (lr1_strict rid RI) a b) as [->|[H|H]].
    + tauto.
    + rewrite H, (ltb_asym _ (lr1_strict rid RI) _ _ H). cbn. intuition congruence.
    + rewrite H, (ltb_asym _ (lr1_strict rid RI) _ _ H). cbn. tauto.
Qed.
Print Assumptions C53_orders_partial.
Theorem C53_greater_refuted : exists rid (a : lr1), lr1_gtb rid a a = true.
Proof. exists (fun _ => 0), (mkLr0 (mkRule IEmpty []) 0, []). reflexivity. Qed.
Print Assumptions C53_greater_refuted.
Example C53_nontrivial : let rid := rule_number in let r := mkRule (INonterm 0) [ITerm 1] in
  lr1_ltb rid (mkLr0 r 0, [ITerm 1]) (mkLr0 r 0, [ITerm 2]) = true /\ lr1_ltb rid (mkLr0 r 0, [ITerm 2]) (mkLr0 r 0, [ITerm 1; ITerm 3]) = true /\ lr1_ltb rid (mkLr0 r 0, [ITerm 2]) (mkLr0 r 1, []) = true.
Proof. repeat split. Qed.
