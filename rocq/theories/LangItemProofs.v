(** Proofs about the items that productions are compiled to. *)
From Verif Require Import Base OrdMap GrammarModel GrammarSpec GrammarProofs LangModel LangSpec.
Local Open Scope Z_scope.

(** ** Induction over productions as written *)
Section Induction.
  Context (P : simple -> Prop).
  Hypothesis HN : forall source n, P (SNonterminal source n).
  Hypothesis HT : forall k source n, P (STerminal k source n).
  Hypothesis HG : forall a more, Forall P a -> Forall (Forall P) more -> P (SGuard a more).
  Hypothesis HS : forall s, P s -> P (SStar s).
  Hypothesis HL : forall s, P s -> P (SPlus s).
  Hypothesis HQ : forall s, P s -> P (SQuestion s).
  Hypothesis HP : forall a more, Forall P a -> Forall (Forall P) more -> P (SParen a more).
  Fixpoint simple_rect' (s : simple) : P s :=
    let all := fix all (l : list simple) : Forall P l := match l with [] => Forall_nil _ | a :: l => Forall_cons a (simple_rect' a) (all l) end in
    let alls := fix alls (ls : list (list simple)) : Forall (Forall P) ls := match ls with [] => Forall_nil _ | l :: ls => Forall_cons l (all l) (alls ls) end in
    match s with
    | SNonterminal source n => HN source n
    | STerminal k source n => HT k source n
    | SGuard a more => HG a more (all a) (alls more)
    | SStar s => HS s (simple_rect' s)
    | SPlus s => HL s (simple_rect' s)
    | SQuestion s => HQ s (simple_rect' s)
    | SParen a more => HP a more (all a) (alls more)
    end.
End Induction.

(** ** The items of a production *)
Section Translate.
  Context (nt tm : name -> Z).
  Local Notation tr := (tr nt tm).
  Local Notation tr_all := (tr_all nt tm).
  Fixpoint tr_alts (first : list simple) (more : list (list simple)) : list item :=
    match more with
    | [] => tr_all first
    | next :: more => [IEbnf Alternative [tr_all first; tr_alts next more]]
    end.
  Lemma tr_or_alts more : forall a, tr_or (map tr a) (map (map tr) more) = tr_alts a more.
  Proof.
    induction more as [|m more IH]; intros a; cbn [map tr_or tr_alts]; [unfold LangSpec.tr_all; rewrite flat_map_concat_map; reflexivity|].
    rewrite IH. unfold LangSpec.tr_all. rewrite flat_map_concat_map. reflexivity.
  Qed.
  Lemma tr_guard a more : tr (SGuard a more) = [IGuard (-1) (tr_alts a more)].
  Proof. cbn [LangSpec.tr]. rewrite tr_or_alts. reflexivity. Qed.
  Lemma tr_paren a more : tr (SParen a more) = tr_alts a more.
  Proof. cbn [LangSpec.tr]. apply tr_or_alts. Qed.
End Translate.

Definition nts_all (l : list simple) : list name := flat_map nonterminals_in l.
Definition tms_all (l : list simple) : list name := map snd (flat_map terminals_in l).

Lemma tr_alts_ext nt tm nt' tm' more : Forall (fun l => tr_all nt tm l = tr_all nt' tm' l) more -> forall a, tr_all nt tm a = tr_all nt' tm' a -> tr_alts nt tm a more = tr_alts nt' tm' a more.
Proof.
  induction 1 as [|m more E F IH]; intros a Ea; cbn [tr_alts]; [exact Ea|]. rewrite Ea, (IH m E). reflexivity.
Qed.
Lemma tr_ext nt tm nt' tm' s : (forall n, In n (nonterminals_in s) -> nt n = nt' n) -> (forall k src n, In (k, src, n) (terminals_in s) -> tm n = tm' n) -> tr nt tm s = tr nt' tm' s.
Proof.
  induction s as [src n|k src n|a more Ha Hm|s IH|s IH|s IH|a more Ha Hm] using simple_rect'; intros N T.
  - cbn [LangSpec.tr]. rewrite N by (left; reflexivity). reflexivity.
  - cbn [LangSpec.tr]. rewrite (T k src n) by (left; reflexivity). reflexivity.
  - rewrite !tr_guard. f_equal. f_equal. cbn [nonterminals_in terminals_in flat_map] in *. apply tr_alts_ext.
    + rewrite Forall_forall in Hm |- *. intros l Hl. unfold LangSpec.tr_all. specialize (Hm l Hl). rewrite Forall_forall in Hm.
      rewrite !flat_map_concat_map. f_equal. apply map_ext_in. intros s Hs. apply (Hm s Hs).
      * intros n Hn. apply N, in_or_app. right. apply in_flat_map. exists l. split; [exact Hl|]. apply in_flat_map. eauto.
      * intros k src n Hn. eapply T, in_or_app. right. apply in_flat_map. exists l. split; [exact Hl|]. apply in_flat_map. eauto.
    + unfold LangSpec.tr_all. rewrite Forall_forall in Ha. rewrite !flat_map_concat_map. f_equal. apply map_ext_in. intros s Hs. apply (Ha s Hs).
      * intros n Hn. apply N, in_or_app. left. apply in_flat_map. eauto.
      * intros k src n Hn. eapply T, in_or_app. left. apply in_flat_map. eauto.
  - cbn [LangSpec.tr]. rewrite IH by assumption. reflexivity.
  - cbn [LangSpec.tr]. rewrite IH by assumption. reflexivity.
  - cbn [LangSpec.tr]. rewrite IH by assumption. reflexivity.
  - rewrite !tr_paren. cbn [nonterminals_in terminals_in flat_map] in *. apply tr_alts_ext.
    + rewrite Forall_forall in Hm |- *. intros l Hl. unfold LangSpec.tr_all. specialize (Hm l Hl). rewrite Forall_forall in Hm.
      rewrite !flat_map_concat_map. f_equal. apply map_ext_in. intros s Hs. apply (Hm s Hs).
      * intros n Hn. apply N, in_or_app. right. apply in_flat_map. exists l. split; [exact Hl|]. apply in_flat_map. eauto.
      * intros k src n Hn. eapply T, in_or_app. right. apply in_flat_map. exists l. split; [exact Hl|]. apply in_flat_map. eauto.
    + unfold LangSpec.tr_all. rewrite Forall_forall in Ha. rewrite !flat_map_concat_map. f_equal. apply map_ext_in. intros s Hs. apply (Ha s Hs).
      * intros n Hn. apply N, in_or_app. left. apply in_flat_map. eauto.
      * intros k src n Hn. eapply T, in_or_app. left. apply in_flat_map. eauto.
Qed.
Lemma tr_all_ext nt tm nt' tm' l : (forall n, In n (nts_all l) -> nt n = nt' n) -> (forall n, In n (tms_all l) -> tm n = tm' n) -> tr_all nt tm l = tr_all nt' tm' l.
Proof.
  intros N T. unfold LangSpec.tr_all. rewrite !flat_map_concat_map. f_equal. apply map_ext_in. intros s Hs. apply tr_ext.
  - intros n Hn. apply N. apply in_flat_map. eauto.
  - intros k src n Hn. apply T. apply in_map_iff. exists (k, src, n). split; [reflexivity|]. apply in_flat_map. eauto.
Qed.

(** ** Identifiers *)
Definition ids_ok (g : ids) : Prop := exists log, after issued_nonterminals g log.
Definition nt_of (g : ids) (n : name) : Z := match mfind name_ltb n (name_nt g) with Some id => id | None => -1 end.
Definition known (g : ids) (n : name) : Prop := exists id, In (n, id) (name_nt g).
Definition grows (g g' : ids) : Prop := forall n id, In (n, id) (name_nt g) -> In (n, id) (name_nt g').

Lemma grows_refl g : grows g g.
Proof. intros n id H. exact H. Qed.
Lemma grows_trans g1 g2 g3 : grows g1 g2 -> grows g2 g3 -> grows g1 g3.
Proof. intros A B n id H. apply B, A, H. Qed.
Lemma grows_known g g' n : grows g g' -> known g n -> known g' n.
Proof. intros G [id H]. exists id. apply G, H. Qed.
Lemma ids_ok_sorted g : ids_ok g -> msorted name_ltb (name_nt g).
Proof. intros [log A]. apply (items_after _ _ A). Qed.
Lemma nt_of_in g n id : ids_ok g -> In (n, id) (name_nt g) -> nt_of g n = id.
Proof. intros O H. unfold nt_of. rewrite (proj2 (mfind_in _ name_strict _ (ids_ok_sorted g O) _ _) H). reflexivity. Qed.
Lemma nt_of_grows g g' n : ids_ok g -> ids_ok g' -> grows g g' -> known g n -> nt_of g' n = nt_of g n.
Proof. intros O O' G [id H]. rewrite (nt_of_in g n id O H). apply nt_of_in; [exact O'|apply G, H]. Qed.
Lemma nt_of_known g n : ids_ok g -> known g n -> In (n, nt_of g n) (name_nt g).
Proof. intros O [id H]. rewrite (nt_of_in g n id O H). exact H. Qed.
Lemma known_dec g n : ids_ok g -> known g n \/ ~ known g n.
Proof.
  intros O. destruct (mfind name_ltb n (name_nt g)) as [id|] eqn:F.
  - left. exists id. apply (mfind_in _ name_strict _ (ids_ok_sorted g O)), F.
  - right. intros [id H]. apply (mfind_in _ name_strict _ (ids_ok_sorted g O)) in H. congruence.
Qed.
Lemma nt_of_inj g n k : ids_ok g -> known g n -> nt_of g n = nt_of g k -> n = k.
Proof.
  intros O K E. destruct O as [log A]. pose proof (items_after _ _ A) as I. assert (O : ids_ok g) by (exists log; exact A).
  pose proof (nt_of_known g n O K) as H. destruct (known_dec g k O) as [Kk|Kk].
  - pose proof (nt_of_known g k O Kk) as H2. rewrite <- E in H2. apply (ii_inv _ _ I) in H, H2. eapply (msorted_unique _ Zltb_strict); [apply I|exact H|exact H2].
  - exfalso. apply (ii_item _ _ I) in H. destruct (nb_range _ _ _ (ii_numbering _ _ I) (nt_of g n)) as [R _]. assert (HR : exists k : item, In (k, nt_of g n) (item_id g)) by (eexists; exact H). specialize (R HR).
    rewrite E in R. unfold nt_of in R. destruct (mfind name_ltb k (name_nt g)) as [id|] eqn:F; [|lia]. apply Kk. exists id. apply (mfind_in _ name_strict _ (ids_ok_sorted g O)), F.
Qed.
Lemma id_for_nonterminal_spec g n : ids_ok g ->
  ids_ok (fst (id_for_nonterminal n g)) /\ grows g (fst (id_for_nonterminal n g)) /\ In (n, snd (id_for_nonterminal n g)) (name_nt (fst (id_for_nonterminal n g))) /\
  (forall k, known (fst (id_for_nonterminal n g)) k -> k = n \/ known g k).
Proof.
  intros O. destruct O as [log A]. pose proof (after_call issued_nonterminals g log (ForName n) A Logic.I) as A'. cbn [perform] in A'.
  assert (O : ids_ok g) by (exists log; exact A). pose proof (ids_ok_sorted g O) as S.
  split; [eexists; exact A'|]. split; [|split].
  - intros k id H. unfold id_for_nonterminal. destruct (mfind name_ltb n (name_nt g)) as [i|] eqn:F; [exact H|]. cbn [fst name_nt].
    apply (minsert_in _ _ S). left. exact H.
  - apply (ii_log_name _ _ (items_after _ _ A')). left. reflexivity.
  - intros k [id H]. unfold id_for_nonterminal in H. destruct (mfind name_ltb n (name_nt g)) as [i|] eqn:F; [right; exists id; exact H|]. cbn [fst name_nt] in H.
    apply (minsert_in _ _ S) in H. destruct H as [H|[E _]]; [right; exists id; exact H|left; congruence].
Qed.
Lemma identifier_for_item_spec g i : (forall n, i <> INonterm n) -> ids_ok g ->
  ids_ok (fst (identifier_for_item i g)) /\ name_nt (fst (identifier_for_item i g)) = name_nt g.
Proof.
  intros N [log A]. split.
  - eexists. apply (after_call issued_nonterminals g log (ForItem i) A). destruct i; try exact Logic.I. exfalso. eapply N. reflexivity.
  - unfold identifier_for_item. destruct (mfind item_ltb i (item_id g)); reflexivity.
Qed.
Lemma identifier_for_rule_spec g r : ids_ok g ->
  ids_ok (fst (identifier_for_rule r g)) /\ name_nt (fst (identifier_for_rule r g)) = name_nt g.
Proof.
  intros [log A]. split.
  - eexists. apply (after_call issued_nonterminals g log (ForRule r) A Logic.I).
  - unfold identifier_for_rule. destruct (mfind rule_ltb r (rule_id g)); reflexivity.
Qed.

(** ** Compiling items *)
Section Compile.
  Context (tm : name -> Z).

  (** What compiling does to the identifiers: [names] are the nonterminals that are mentioned. *)
  Record extends (names : list name) (g g' : ids) : Prop := {
    e_ok : ids_ok g';
    e_grows : grows g g';
    e_known : forall n, In n names -> known g' n;
    e_only : forall n, known g' n -> known g n \/ In n names }.
  Lemma extends_none g : ids_ok g -> extends [] g g.
  Proof. intros O. constructor; [exact O|apply grows_refl|intros n []|auto]. Qed.
  Lemma extends_app l k g1 g2 g3 : extends l g1 g2 -> extends k g2 g3 -> extends (l ++ k) g1 g3.
  Proof.
    intros A B. constructor; [apply B|eapply grows_trans; [apply A|apply B]| |].
    - intros n H. apply in_app_or in H. destruct H as [H|H]; [eapply grows_known; [apply B|apply A, H]|apply B, H].
    - intros n H. apply (e_only _ _ _ B) in H. destruct H as [H|H]; [apply (e_only _ _ _ A) in H; destruct H as [H|H]; [auto|right; apply in_or_app; auto]|right; apply in_or_app; auto].
  Qed.
  Lemma extends_item l g g' i : (forall n, i <> INonterm n) -> extends l g g' -> extends l g (fst (identifier_for_item i g')).
  Proof.
    intros N E. destruct (identifier_for_item_spec g' i N (e_ok _ _ _ E)) as [O F]. constructor; [exact O| | |].
    - intros n id H. rewrite F. apply E, H.
    - intros n H. unfold known. rewrite F. apply E, H.
    - intros n H. unfold known in H. rewrite F in H. apply E, H.
  Qed.

  Definition compiles (e : ebnf) (names : list name) (r : (name -> Z) -> list item) : Prop :=
    forall g guards, ids_ok g -> exists g' guards', compile_item tm e (g, guards) = Some ((g', guards'), r (nt_of g')) /\ extends names g g'.
  Definition compiles_list (l : list ebnf) (names : list name) (r : (name -> Z) -> list item) : Prop :=
    forall g guards, ids_ok g -> exists g' guards', compile_items tm l (g, guards) = Some ((g', guards'), r (nt_of g')) /\ extends names g g'.

  Lemma compile_paren source n l c : compile_item tm (Ebnf EParenthesized source n l) c = compile_items tm l c.
  Proof.
    revert c. induction l as [|e l IH]; intros c; [reflexivity|]. cbn [compile_items].
    change (match compile_item tm e c with None => None | Some (c, i) => match compile_item tm (Ebnf EParenthesized source n l) c with None => None | Some (c, k) => Some (c, i ++ k) end end = match compile_item tm e c with None => None | Some (c, i) => match compile_items tm l c with None => None | Some (c, k) => Some (c, i ++ k) end end).
    destruct (compile_item tm e c) as [[c' i]|]; [|reflexivity]. rewrite IH. reflexivity.
  Qed.
  Lemma compile_one_item l c : compile_item tm (one_item l) c = compile_items tm l c.
  Proof.
    destruct l as [|x [|y l]]; [reflexivity| |apply compile_paren]. cbn [one_item compile_items]. destruct (compile_item tm x c) as [[c' i]|]; [|reflexivity]. rewrite app_nil_r. reflexivity.
  Qed.
  Definition tr_later (s : simple) (nt : name -> Z) : list item := tr nt tm s.
  Lemma compiles_all l : Forall (fun s => compiles (ebnf_of s) (nonterminals_in s) (tr_later s)) l -> compiles_list (map ebnf_of l) (nts_all l) (fun nt => tr_all nt tm l).
  Proof.
    induction 1 as [|s l H F IH]; intros g guards O; cbn [map compile_items].
    - exists g, guards. split; [reflexivity|apply extends_none, O].
    - destruct (H g guards O) as (g1 & u1 & E1 & X1). rewrite E1. destruct (IH g1 u1 (e_ok _ _ _ X1)) as (g2 & u2 & E2 & X2). rewrite E2. exists g2, u2. split; [|eapply extends_app; eassumption].
      f_equal. f_equal. unfold LangSpec.tr_all. cbn [flat_map]. f_equal. unfold tr_later. apply tr_ext; [|reflexivity]. intros n Hn. symmetry. apply nt_of_grows; [apply X1|apply X2|apply X2|apply X1, Hn].
  Qed.
  Lemma compiles_alts more : Forall (Forall (fun s => compiles (ebnf_of s) (nonterminals_in s) (tr_later s))) more -> forall a, Forall (fun s => compiles (ebnf_of s) (nonterminals_in s) (tr_later s)) a ->
    compiles (with_or (map ebnf_of a) (map (map ebnf_of) more)) (flat_map (flat_map nonterminals_in) (a :: more)) (fun nt => tr_alts nt tm a more).
  Proof.
    induction 1 as [|m more H F IH]; intros a Ha g guards O; cbn [map with_or flat_map tr_alts].
    - rewrite app_nil_r. rewrite compile_one_item. apply (compiles_all a Ha g guards O).
    - destruct (compiles_all a Ha g guards O) as (g1 & u1 & E1 & X1). destruct (IH m H g1 u1 (e_ok _ _ _ X1)) as (g2 & u2 & E2 & X2).
      cbn [compile_item]. fold (compile_item tm). rewrite compile_one_item, E1, E2. cbn [fst snd].
      match goal with |- context [identifier_for_item ?i g2] => set (x := i) end. destruct (identifier_for_item x g2) as [g3 id] eqn:EI. pose proof (extends_item _ g g2 x (ltac:(discriminate)) (extends_app _ _ _ _ _ X1 X2)) as X3. rewrite EI in X3. cbn [fst] in X3.
      exists g3, u2. split; [|exact X3]. f_equal. f_equal. unfold x. f_equal. f_equal.
      assert (G23 : forall k, known g2 k -> nt_of g3 k = nt_of g2 k).
      { intros k K. unfold nt_of. pose proof (proj2 (identifier_for_item_spec g2 x (ltac:(discriminate)) (e_ok _ _ _ X2))) as NE. rewrite EI in NE. cbn [fst] in NE. rewrite NE. reflexivity. }
      f_equal; [|f_equal].
      + apply tr_all_ext; [|reflexivity]. intros k Hk. pose proof (e_known _ _ _ X1 k Hk) as K. rewrite G23 by (eapply grows_known; [apply X2|exact K]). symmetry. apply nt_of_grows; [apply X1|apply X2|apply X2|exact K].
      + apply tr_alts_ext.
        * rewrite Forall_forall. intros l Hl. apply tr_all_ext; [|reflexivity]. intros k Hk. symmetry. apply G23, (e_known _ _ _ X2). cbn [flat_map]. apply in_or_app. right. apply in_flat_map. exists l. auto.
        * apply tr_all_ext; [|reflexivity]. intros k Hk. symmetry. apply G23, (e_known _ _ _ X2). cbn [flat_map]. apply in_or_app. left. exact Hk.
  Qed.

  Lemma compiles_simple s : compiles (ebnf_of s) (nonterminals_in s) (tr_later s).
  Proof.
    assert (BODY : forall (k : ebnf_kind) (e : ebnf) names (r : (name -> Z) -> list item) g guards, compiles e names r -> (forall nt nt', (forall n, In n names -> nt n = nt' n) -> r nt = r nt') -> ids_ok g ->
      exists g' guards', match compile_item tm e (g, guards) with None => None | Some (c, q) => let '(g0, _) := identifier_for_item (IEbnf k [q]) (fst c) in Some ((g0, snd c), [IEbnf k [q]]) end = Some ((g', guards'), [IEbnf k [r (nt_of g')]]) /\ extends names g g').
    { intros k e names r g guards C EXT O. destruct (C g guards O) as (g1 & u1 & E1 & X1). rewrite E1. cbn [fst snd]. set (x := IEbnf k [r (nt_of g1)]).
      assert (NX : forall n, x <> INonterm n) by (intros n; unfold x; discriminate).
      pose proof (extends_item _ g g1 x NX X1) as X2. pose proof (proj2 (identifier_for_item_spec g1 x NX (e_ok _ _ _ X1))) as NE.
      destruct (identifier_for_item x g1) as [g2 id]. cbn [fst] in X2, NE. exists g2, u1. split; [|exact X2]. unfold x. f_equal. f_equal. f_equal. f_equal. f_equal. apply EXT. intros n _. unfold nt_of. rewrite NE. reflexivity. }
    induction s as [src n|k src n|a more Ha Hm|s IH|s IH|s IH|a more Ha Hm] using simple_rect'.
    - intros g guards O. cbn [ebnf_of compile_item fst snd]. destruct (id_for_nonterminal_spec g n O) as (O' & G & K & ONLY). destruct (id_for_nonterminal n g) as [g' id]. cbn [fst snd] in *. exists g', guards. split.
      + unfold tr_later. cbn [LangSpec.tr]. rewrite (nt_of_in g' n id O' K). reflexivity.
      + constructor; [exact O'|exact G| |]; cbn [nonterminals_in].
        * intros k [<-|[]]. exists id. exact K.
        * intros k H. destruct (ONLY k H) as [->|H2]; [right; left; reflexivity|left; exact H2].
    - intros g guards O. exists g, guards. cbn [ebnf_of]. split; [destruct k; reflexivity|apply extends_none, O].
    - intros g guards O. cbn [ebnf_of compile_item]. fold (compile_item tm). destruct (compiles_alts more Hm a Ha g guards O) as (g1 & u1 & E1 & X1). rewrite E1. cbn [fst snd].
      set (x := IGuard (-1) (tr_alts (nt_of g1) tm a more)). assert (NX : forall n, x <> INonterm n) by (intros n; unfold x; discriminate).
      pose proof (extends_item _ g g1 x NX X1) as X2. pose proof (proj2 (identifier_for_item_spec g1 x NX (e_ok _ _ _ X1))) as NE.
      destruct (identifier_for_item x g1) as [g2 id]. cbn [fst] in X2, NE. eexists g2, _. split; [|exact X2]. unfold tr_later. rewrite tr_guard.
      assert (NT : nt_of g2 = nt_of g1) by (unfold nt_of; rewrite NE; reflexivity). rewrite NT. reflexivity.
    - intros g guards O. cbn [ebnf_of compile_item]. fold (compile_item tm). apply (BODY RepeatZero (ebnf_of s) (nonterminals_in s) (tr_later s)); [exact IH| |exact O]. intros nt nt' H. apply tr_ext; [exact H|reflexivity].
    - intros g guards O. cbn [ebnf_of compile_item]. fold (compile_item tm). apply (BODY Repeat (ebnf_of s) (nonterminals_in s) (tr_later s)); [exact IH| |exact O]. intros nt nt' H. apply tr_ext; [exact H|reflexivity].
    - intros g guards O. cbn [ebnf_of compile_item]. fold (compile_item tm). apply (BODY Optional (ebnf_of s) (nonterminals_in s) (tr_later s)); [exact IH| |exact O]. intros nt nt' H. apply tr_ext; [exact H|reflexivity].
    - intros g guards O. cbn [ebnf_of nonterminals_in]. destruct (compiles_alts more Hm a Ha g guards O) as (g1 & u1 & E1 & X1). exists g1, u1. split; [|exact X1]. rewrite E1. unfold tr_later. rewrite tr_paren. reflexivity.
  Qed.
  Lemma compiles_production p : compiles_list (map ebnf_of p) (nts_all p) (fun nt => tr_all nt tm p).
  Proof. apply compiles_all. apply Forall_forall. intros s _. apply compiles_simple. Qed.
End Compile.
