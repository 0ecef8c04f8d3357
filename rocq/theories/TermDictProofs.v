(** Proofs about the terminal dictionary. *)
From Verif Require Import Base OrdMap TermDictModel TermDictSpec.
Local Open Scope Z_scope.

Lemma name_strict : strict_total name_ltb.
Proof. apply lex_strict_total, Zltb_strict. Qed.

(** What holds after every call, whatever the names and the splits *)
Record inv (d : dict) (l : log) : Prop := {
  i_fresh : forall s, issued s l -> 0 <= s < max_symbol d;
  i_max : 0 <= max_symbol d;
  i_once : NoDup (map snd l);
  i_names : msorted name_ltb (name_symbol d);
  i_symbols : msorted Z.ltb (symbol_name d);
  i_parents : msorted Z.ltb (parent_for d);
  i_children : msorted Z.ltb (children_for d);
  i_entry_name : forall n s, In (n, s) (name_symbol d) <-> entry n s l;
  i_entry_symbol : forall n s, In (s, n) (symbol_name d) <-> entry n s l;
  i_split : forall s p, In (s, p) (parent_for d) -> exists q, In (Split q, s) l;
  i_split_parent : forall s q, In (Split q, s) l -> In (s, parent_of q d) (parent_for d) /\ issued q l;
  i_root : forall s p, In (s, p) (parent_for d) -> issued p l /\ (forall p', ~ In (p, p') (parent_for d));
  i_child : forall s p, In s (children_of p d) <-> In (s, p) (parent_for d) }.

Lemma entry_cons n s c r l : entry n s ((c, r) :: l) <-> (r = s /\ (c = Named n \/ c = Valued n s)) \/ entry n s l.
Proof.
  unfold entry. cbn [In]. split.
  - intros [[E|H]|[E|H]]; [injection E as -> ->; auto|auto|injection E as -> ->; auto|auto].
  - intros [[-> [-> | ->]]|[H|H]]; auto.
Qed.
Lemma issued_cons s c r l : issued s ((c, r) :: l) <-> r = s \/ issued s l.
Proof.
  unfold issued. cbn [In]. split.
  - intros (c' & [E|H]); [injection E; auto|eauto].
  - intros [-> |(c' & H)]; eauto.
Qed.
Lemma issued_in s l : issued s l <-> In s (map snd l).
Proof. unfold issued. rewrite in_map_iff. split; [intros (c & H); exists (c, s); auto|intros ([c s'] & <- & H); eauto]. Qed.
Lemma entry_issued n s l : entry n s l -> issued s l.
Proof. unfold entry, issued. intros [H|H]; eauto. Qed.

Lemma inv_new : inv new_dict [].
Proof.
  assert (E : forall n s, In (n, s) [] <-> entry n s []) by (intros n s; unfold entry; cbn [In]; tauto).
  assert (E2 : forall n s, In (s, n) [] <-> entry n s []) by (intros n s; unfold entry; cbn [In]; tauto).
  constructor; cbn [new_dict max_symbol name_symbol symbol_name parent_for children_for map]; try exact E; try exact E2; try (intros ? ? []); try (constructor; fail).
  - intros s (c & []).
  - lia.
  - intros s p. cbn. tauto.
Qed.

(** The part of the invariant that does not depend on names carries over when a symbol without
    a parent is added. *)
Lemma inv_add c n_s s_n m r d l : inv d l ->
  (forall n s, In (n, s) n_s <-> entry n s ((c, r) :: l)) -> (forall n s, In (s, n) s_n <-> entry n s ((c, r) :: l)) ->
  msorted name_ltb n_s -> msorted Z.ltb s_n ->
  max_symbol d <= m -> 0 <= r < m -> ~ issued r l -> (forall q, c <> Split q) ->
  inv (mkDict m n_s s_n (parent_for d) (children_for d)) ((c, r) :: l).
Proof.
  intros [] EN ES SN SS M R F NS. constructor; cbn [max_symbol name_symbol symbol_name parent_for children_for]; try assumption.
  - intros s H. apply issued_cons in H. destruct H as [<-|H]; [exact R|]. apply i_fresh0 in H. lia.
  - lia.
  - constructor; [|assumption]. cbn [snd]. rewrite <- issued_in. exact F.
  - intros s p H. apply i_split0 in H. destruct H as [q H]. exists q. right. exact H.
  - intros s q [E|H]; [injection E as -> ->; exfalso; eapply NS; reflexivity|]. apply i_split_parent0 in H. destruct H as [H1 H2]. split; [exact H1|]. apply issued_cons. auto.
  - intros s p H. apply i_root0 in H. destruct H as [H1 H2]. split; [apply issued_cons; auto|exact H2].
Qed.

Lemma children_sorted_step p s d : msorted Z.ltb (children_for d) -> forall q x, 
  In x (match mfind Z.ltb q (mset Z.ltb p (sins Z.ltb s (children_of p d)) (children_for d)) with Some cs => cs | None => [] end) <-> (q = p /\ x = s) \/ In x (children_of q d).
Proof.
  intros S q x. destruct (Z.eq_dec q p) as [->|Hn].
  - rewrite (mfind_mset_same _ Zltb_strict) by exact S. rewrite sins_in by apply Zltb_strict. intuition congruence.
  - rewrite (mfind_mset_other _ Zltb_strict) by assumption. fold (children_of q d). intuition congruence.
Qed.

Lemma inv_step d l c : inv d l -> sensible l c -> inv (fst (perform c d)) ((c, snd (perform c d)) :: l).
Proof.
  intros I OK. assert (FR : ~ issued (max_symbol d) l) by (intros H; apply (i_fresh _ _ I) in H; lia). pose proof (i_max _ _ I) as M. destruct c as [|n|n v|q]; cbn [perform].
  - unfold add_symbol. cbn [fst snd]. apply inv_add; try apply I; try assumption; try lia; try discriminate.
    + intros n s. rewrite entry_cons, (i_entry_name _ _ I). split; [auto|]. intros [[_ [E|E]]|H]; [discriminate E|discriminate E|exact H].
    + intros n s. rewrite entry_cons, (i_entry_symbol _ _ I). split; [auto|]. intros [[_ [E|E]]|H]; [discriminate E|discriminate E|exact H].
  - unfold add_named, add_symbol. cbn [fst snd max_symbol name_symbol symbol_name parent_for children_for]. apply inv_add; try assumption; try lia; try discriminate.
    + intros n' s. rewrite entry_cons, (mset_in _ name_strict) by apply I. cbn [fst]. rewrite (i_entry_name _ _ I). split.
      * intros [E|[H _]]; [injection E as -> ->; left; auto|right; exact H].
      * intros [[<- [E|E]]|H]; [injection E as ->; auto|discriminate E|]. right. split; [exact H|]. intros ->. eapply OK, H.
    + intros n' s. rewrite entry_cons, (mset_in _ Zltb_strict) by apply I. cbn [fst]. rewrite (i_entry_symbol _ _ I). split.
      * intros [E|[H _]]; [injection E as -> ->; left; auto|right; exact H].
      * intros [[<- [E|E]]|H]; [injection E as ->; auto|discriminate E|]. right. split; [exact H|]. intros ->. apply entry_issued in H. contradiction.
    + apply mset_sorted; [apply name_strict|apply I].
    + apply mset_sorted; [apply Zltb_strict|apply I].
  - destruct OK as (ON & OV & OI). unfold add_valued. cbn [fst snd]. apply inv_add; try assumption; try (destruct (Z.leb_spec (max_symbol d) v); lia); try discriminate.
    + intros n' s. rewrite entry_cons, (mset_in _ name_strict) by apply I. cbn [fst]. rewrite (i_entry_name _ _ I). split.
      * intros [E|[H _]]; [injection E as -> ->; left; auto|right; exact H].
      * intros [[<- [E|E]]|H]; [discriminate E|injection E as ->; auto|]. right. split; [exact H|]. intros ->. eapply ON, H.
    + intros n' s. rewrite entry_cons, (mset_in _ Zltb_strict) by apply I. cbn [fst]. rewrite (i_entry_symbol _ _ I). split.
      * intros [E|[H _]]; [injection E as -> ->; left; auto|right; exact H].
      * intros [[<- [E|E]]|H]; [discriminate E|injection E as ->; auto|]. right. split; [exact H|]. intros ->. apply entry_issued in H. contradiction.
    + apply mset_sorted; [apply name_strict|apply I].
    + apply mset_sorted; [apply Zltb_strict|apply I].
  - cbn [sensible] in OK. unfold split_symbol, add_symbol. set (p := parent_of q d). set (new := max_symbol d) in *.
    assert (PI : issued p l /\ (forall p', ~ In (p, p') (parent_for d))).
    { unfold p, parent_of. destruct (mfind Z.ltb q (parent_for d)) as [p'|] eqn:F.
      - apply (mfind_in _ Zltb_strict) in F; [|apply I]. eapply (i_root _ _ I), F.
      - split; [exact OK|]. apply (mfind_none _ Zltb_strict); [apply I|exact F]. }
    destruct PI as [PI PR]. assert (0 <= p) by (apply (i_fresh _ _ I) in PI; lia). destruct (Z.leb_spec 0 p); [|lia]. cbn [fst snd max_symbol name_symbol symbol_name parent_for children_for].
    assert (NP : mfind Z.ltb new (parent_for d) = None).
    { apply (mfind_none _ Zltb_strict); [apply I|]. intros v H'. apply (i_split _ _ I) in H'. destruct H' as [q' H']. apply FR. eexists; exact H'. }
    assert (PO : forall x, issued x l -> parent_of x (mkDict (new + 1) (name_symbol d) (symbol_name d) (mset Z.ltb new p (parent_for d))
             (mset Z.ltb p (sins Z.ltb new (children_of p (mkDict (new + 1) (name_symbol d) (symbol_name d) (parent_for d) (children_for d)))) (children_for d))) = parent_of x d).
    { intros x Hx. unfold parent_of. cbn [parent_for]. rewrite (mfind_mset_other _ Zltb_strict); [reflexivity|apply I|]. intros ->. contradiction. }
    constructor; cbn [max_symbol name_symbol symbol_name parent_for children_for].
    + intros s Hs. apply issued_cons in Hs. destruct Hs as [<-|Hs]; [lia|]. apply (i_fresh _ _ I) in Hs. unfold new. lia.
    + lia.
    + constructor; [|apply I]. cbn [snd]. rewrite <- issued_in. exact FR.
    + apply I.
    + apply I.
    + apply mset_sorted; [apply Zltb_strict|apply I].
    + apply mset_sorted; [apply Zltb_strict|apply I].
    + intros n s. rewrite entry_cons, (i_entry_name _ _ I). split; [auto|]. intros [[_ [E|E]]|H']; [discriminate E|discriminate E|exact H'].
    + intros n s. rewrite entry_cons, (i_entry_symbol _ _ I). split; [auto|]. intros [[_ [E|E]]|H']; [discriminate E|discriminate E|exact H'].
    + intros s p' Hs. apply (mset_in _ Zltb_strict) in Hs; [|apply I]. destruct Hs as [E|[Hs _]]; [injection E as -> ->; exists q; left; reflexivity|].
      apply (i_split _ _ I) in Hs. destruct Hs as [q' Hs]. exists q'. right. exact Hs.
    + intros s q' [E|Hs].
      * injection E as -> <-. split; [|apply issued_cons; auto]. rewrite PO by exact OK. apply (mset_in _ Zltb_strict); [apply I|]. left. reflexivity.
      * destruct (i_split_parent _ _ I _ _ Hs) as [H1 H2]. split; [|apply issued_cons; auto]. rewrite PO by exact H2. apply (mset_in _ Zltb_strict); [apply I|]. right. split; [exact H1|]. cbn.
        intros ->. apply FR. eexists; exact Hs.
    + intros s p' Hs. assert (X : issued p' l /\ (forall p'', ~ In (p', p'') (parent_for d))).
      { apply (mset_in _ Zltb_strict) in Hs; [|apply I]. destruct Hs as [E|[Hs _]]; [injection E as -> ->; auto|]. eapply (i_root _ _ I), Hs. }
      destruct X as [X1 X2]. split; [apply issued_cons; auto|]. intros p'' Y. apply (mset_in _ Zltb_strict) in Y; [|apply I]. destruct Y as [E|[Y _]]; [injection E as -> ->; contradiction|]. eapply X2, Y.
    + intros s p'. unfold children_of at 1. cbn [children_for].
      change (children_of p (mkDict (new + 1) (name_symbol d) (symbol_name d) (parent_for d) (children_for d))) with (children_of p d).
      rewrite children_sorted_step by apply I. rewrite (mset_in _ Zltb_strict) by apply I. rewrite (i_child _ _ I). cbn [fst]. split.
      * intros [[-> ->]|Hs]; [left; reflexivity|]. right. split; [exact Hs|]. intros ->. apply (i_split _ _ I) in Hs. destruct Hs as [q' Hs]. apply FR. eexists; exact Hs.
      * intros [E|[Hs _]]; [injection E as -> ->; auto|auto].
Qed.
Lemma inv_after d l : after sensible d l -> inv d l.
Proof. induction 1 as [|d l c A IH OK]; [apply inv_new|apply inv_step; assumption]. Qed.

Lemma log_unique (l : log) c c' s : NoDup (map snd l) -> In (c, s) l -> In (c', s) l -> c = c'.
Proof.
  induction l as [|[a r] l IH]; intros N H1 H2; [destruct H1|]. cbn [map snd] in N. apply NoDup_cons_iff in N. destruct N as [N1 N2].
  destruct H1 as [E1|H1], H2 as [E2|H2].
  - congruence.
  - injection E1 as -> ->. exfalso. apply N1, in_map_iff. exists (c', s). auto.
  - injection E2 as -> ->. exfalso. apply N1, in_map_iff. exists (c, s). auto.
  - apply IH; assumption.
Qed.
Lemma parent_root d l s : inv d l -> (forall q, ~ In (Split q, s) l) -> parent_of s d = s.
Proof.
  intros I H. unfold parent_of. destruct (mfind Z.ltb s (parent_for d)) as [p|] eqn:F; [|reflexivity]. apply (mfind_in _ Zltb_strict) in F; [|apply I].
  apply (i_split _ _ I) in F. destruct F as [q F]. exfalso. eapply H, F.
Qed.
Lemma parent_split d l s q : inv d l -> In (Split q, s) l -> parent_of s d = parent_of q d.
Proof.
  intros I H. destruct (i_split_parent _ _ I _ _ H) as [P _]. unfold parent_of at 1. rewrite (proj2 (mfind_in _ Zltb_strict _ (i_parents _ _ I) _ _) P). reflexivity.
Qed.
Lemma entry_unique d l n n' s : inv d l -> entry n s l -> entry n' s l -> n = n'.
Proof. intros I H1 H2. apply (i_entry_symbol _ _ I) in H1, H2. eapply (msorted_unique _ Zltb_strict); [apply I|exact H1|exact H2]. Qed.
Lemma name_found d l n s fuel : inv d l -> entry n s l -> name_for_symbol (S fuel) s d = Some n.
Proof. intros I H. cbn [name_for_symbol]. apply (i_entry_symbol _ _ I) in H. rewrite (proj2 (mfind_in _ Zltb_strict _ (i_symbols _ _ I) _ _) H). reflexivity. Qed.
Lemma name_missing d l s : inv d l -> (forall n, ~ entry n s l) -> mfind Z.ltb s (symbol_name d) = None.
Proof. intros I H. apply (mfind_none _ Zltb_strict); [apply I|]. intros n Hn. apply (i_entry_symbol _ _ I) in Hn. eapply H, Hn. Qed.

Lemma name_of_root d l s fuel : inv d l -> parent_of s d = s -> name_for_symbol (S fuel) s d = match mfind Z.ltb s (symbol_name d) with Some n => Some n | None => Some [] end.
Proof. intros I H. cbn [name_for_symbol]. destruct (mfind Z.ltb s (symbol_name d)); [reflexivity|]. rewrite H, Z.eqb_refl. reflexivity. Qed.
Lemma parent_is_root d l s : inv d l -> parent_of (parent_of s d) d = parent_of s d.
Proof.
  intros I. unfold parent_of at 2 3. destruct (mfind Z.ltb s (parent_for d)) as [p|] eqn:F; [|unfold parent_of; rewrite F; reflexivity].
  apply (mfind_in _ Zltb_strict) in F; [|apply I]. destruct (i_root _ _ I _ _ F) as [_ R]. unfold parent_of. rewrite (proj2 (mfind_none _ Zltb_strict _ (i_parents _ _ I) _) R). reflexivity.
Qed.
Lemma name_split_step d l s q fuel : inv d l -> In (Split q, s) l -> name_for_symbol (S (S fuel)) s d = name_for_symbol (S fuel) (parent_of q d) d.
Proof.
  intros I H. cbn [name_for_symbol]. rewrite name_missing with (l := l); [|exact I|].
  - rewrite (parent_split d l s q I H). destruct (Z.eqb_spec (parent_of q d) s) as [E|]; [|reflexivity]. exfalso. destruct (i_split_parent _ _ I _ _ H) as [P _]. rewrite E in P.
    destruct (i_root _ _ I _ _ P) as [_ R]. eapply R, P.
  - intros n [E|E]; pose proof (log_unique l _ _ s (i_once _ _ I) H E) as X; discriminate X.
Qed.
Lemma name_split d l s q fuel : inv d l -> In (Split q, s) l -> name_for_symbol (S (S fuel)) s d = name_for_symbol (S (S fuel)) q d.
Proof.
  intros I H. rewrite (name_split_step d l s q fuel I H). destruct (i_split_parent _ _ I _ _ H) as [_ [c Q]].
  assert (R : (forall q', ~ In (Split q', q) l) -> name_for_symbol (S fuel) (parent_of q d) d = name_for_symbol (S (S fuel)) q d).
  { intros NS. pose proof (parent_root d l q I NS) as P. rewrite P. rewrite !(name_of_root d l) by assumption. reflexivity. }
  assert (C : forall c', c = c' -> (forall q', c' <> Split q') -> forall q', ~ In (Split q', q) l).
  { intros c' -> NS q' H'. apply (NS q'). eapply log_unique; [apply I|exact Q|exact H']. }
  destruct c as [|n|n v|q0]; try (apply R; eapply C; [reflexivity|discriminate]).
  rewrite (name_split_step d l q q0 fuel I Q), (parent_split d l q q0 I Q). reflexivity.
Qed.
