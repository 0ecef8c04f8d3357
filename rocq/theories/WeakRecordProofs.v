(** Proofs about the record of weak symbols that the lexer stage leaves for the parser. *)
From Verif Require Import Base OrdMap GrammarModel GrammarProofs FirstModel FirstProofs LrItemModel ActionModel ActionProofs TableModel RewriteModel RewriteSpec RewriteProofs WeakLexModel.
Local Open Scope Z_scope.

Lemma record_spec weak m : forall strong i,
  In i (weak_for_strong strong (weak_record m weak no_weak)) <-> exists a s, In (a, s) m /\ i = ITerm a /\ strong = ITerm s.
Proof.
  intros strong i. unfold weak_for_strong, weak_record. cbn [w_weak_for no_weak].
  assert (G : forall m w, msorted item_ltb w ->
    let w' := fold_left (fun s p => mset item_ltb (ITerm (snd p)) (iinsert (ITerm (fst p)) (match mfind item_ltb (ITerm (snd p)) s with Some x => x | None => no_items end)) s) m w in
    forall i, In i (match mfind item_ltb strong w' with Some s => s | None => no_items end) <->
      In i (match mfind item_ltb strong w with Some s => s | None => no_items end) \/ exists a s, In (a, s) m /\ i = ITerm a /\ strong = ITerm s).
  { clear. induction m as [|[a s] m IH]; intros w S w' i; cbn [fold_left] in w'.
    - split; [auto|]. intros [H|(a & s & [] & _)]. exact H.
    - unfold w'. rewrite (IH _ (mset_sorted _ item_strict _ S _ _)). cbn [fst snd]. split.
      + intros [H|(a' & s' & H & R)]; [|right; exists a', s'; split; [right; exact H|exact R]]. destruct (item_eqb strong (ITerm s)) eqn:E.
        * apply item_eqb_spec in E. subst strong. rewrite (mfind_mset_same _ item_strict _ S) in H. apply iinsert_in in H as [->|H]; [right; exists a, s; split; [left; reflexivity|auto]|auto].
        * rewrite (mfind_mset_other _ item_strict _ S) in H; [auto|]. intros ->. rewrite (proj2 (item_eqb_spec _ _) eq_refl) in E. discriminate.
      + intros H. destruct (item_eqb strong (ITerm s)) eqn:E.
        * apply item_eqb_spec in E. subst strong. rewrite (mfind_mset_same _ item_strict _ S). destruct H as [H|(a' & s' & [X|H] & -> & E)]; [left; apply iinsert_in; auto|injection X as <- <-; left; apply iinsert_in; auto|]. right. exists a', s'. auto.
        * assert (NE : strong <> ITerm s) by (intros ->; rewrite (proj2 (item_eqb_spec _ _) eq_refl) in E; discriminate). rewrite (mfind_mset_other _ item_strict _ S) by exact NE.
          destruct H as [H|(a' & s' & [X|H] & -> & E')]; [auto|injection X as <- <-; contradiction|]. right. exists a', s'. auto. }
  rewrite (G m [] (SSorted_nil _) i). cbn [mfind no_items In]. tauto.
Qed.

Lemma record_rewrite weak m q acts c s : msorted Z.ltb m -> mfind Z.ltb c m = Some s -> ~ In (ITerm s) weak -> ssorted action_ltb acts -> ~ has_own acts c ->
  forall a, a_item a = ITerm c -> a_type a <> Guard ->
  In a (weak_rewrite (weak_record m weak no_weak) q acts) <-> exists b, In b acts /\ a_item b = ITerm s /\ as_strong c b a.
Proof.
  intros SM FM NW SA NO a EA NG. set (w := weak_record m weak no_weak).
  assert (WW : forall i, In i (w_weak w) <-> In i weak) by (intros i; unfold w, weak_record; cbn [w_weak no_weak]; rewrite imerge_in; cbn [no_items In]; tauto).
  assert (OW : set_ok (w_weak w)) by (unfold w, weak_record; cbn [w_weak no_weak]; apply imerge_ok; constructor).
  destruct (weak_exact w OW q acts SA) as (_ & N & Y). destruct (has_strong w acts) eqn:HS.
  - rewrite (Y eq_refl a). split.
    + intros [(I & _)|[(I & _)|[(b & B & WA & R & WK)|(b & x & B & OT & NB & X & _ & AS)]]].
      * destruct NO. exists a. auto.
      * destruct NO. exists a. auto.
      * destruct NO. exists b. rewrite WK in EA. cbn in EA. split; [exact B|]. split; [exact EA|apply WA].
      * pose proof AS as AS'. unfold as_strong in AS'. rewrite AS' in EA. cbn [a_item] in EA. injection EA as ->. apply record_spec in X as (a' & s' & I & E & E'). injection E as ->.
        apply (mfind_in _ Zltb_strict _ SM) in I. assert (s' = s) by congruence. subst s'. exists b. auto.
    + intros (b & B & EB & AS). right. right. right. exists b, c. split; [exact B|]. split; [unfold on_terminal; rewrite EB; reflexivity|]. split; [rewrite WW, EB; exact NW|].
      split; [apply record_spec; exists c, s; split; [apply (mfind_in _ Zltb_strict _ SM), FM|auto]|]. split; [|exact AS]. intros x X (_ & _ & G) E. apply NO. exists x. auto.
  - rewrite (N eq_refl). split; [intros I; destruct NO; exists a; auto|]. intros (b & B & EB & _). assert (X : has_strong w acts = true); [|congruence].
    apply (has_strong_spec w). exists b, (ITerm c). split; [exact B|]. split; [unfold on_terminal; rewrite EB; reflexivity|]. apply record_spec. exists c, s. split; [apply (mfind_in _ Zltb_strict _ SM), FM|auto].
Qed.
