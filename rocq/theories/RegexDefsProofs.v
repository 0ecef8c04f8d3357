(** Names with definitions in the lexer data, and the induction over all expressions. *)
From Verif Require Import Base OrdMap SymbolSetModel SymbolSetSpec SymbolSetProofs SymbolMapModel SymbolMapSpec SymbolMapProofs
  NdfaModel NdfaSpec NdfaProofs TextSpec RegexModel RegexSpec RegexGraph RegexBuildProofs RegexParseProofs RegexProofs.
Local Open Scope Z_scope.

Scheme re_all := Induction for re Sort Prop
  with tree_all := Induction for tree Sort Prop
  with definitions_all := Induction for definitions Sort Prop.

Section RegexDefsProofs.
  Context {A : Type} (to_lower to_upper : symbol_set -> symbol_set) (expressions literals : list Z -> option (list Z)) (category : list Z -> option symbol_set)
    (defined : list Z -> list (bool * bool * token)) (surr : bool) (low up : Z -> Z) (convertible : (Z -> Prop) -> Prop).
  Hypothesis TL0 : to_lower [] = [].
  Hypothesis TU0 : to_upper [] = [].
  Hypothesis CX : forall P Q, (forall x, P x <-> Q x) -> convertible P -> convertible Q.
  Hypothesis TL : forall s, normal s -> convertible (fun x => contains s x = true) ->
    normal (to_lower s) /\ forall x, contains (to_lower s) x = true <-> exists y, contains s y = true /\ x = low y.
  Hypothesis TU : forall s, normal s -> convertible (fun x => contains s x = true) ->
    normal (to_upper s) /\ forall x, contains (to_upper s) x = true <-> exists y, contains s y = true /\ x = up y.

  Notation builder := (builder (A := A)).
  Notation shift := (shift (A := A) to_lower to_upper).
  Notation pop := (pop (A := A) to_lower to_upper).
  Notation begin_or := (begin_or (A := A) to_lower to_upper).
  Notation rejoin := (rejoin (A := A) to_lower to_upper).
  Notation eval := (eval (A := A) to_lower to_upper expressions literals category defined).
  Notation items_done := (items_done (A := A) to_lower to_upper expressions literals category defined).
  Notation good nc := (good (A := A) surr nc).
  Notation both nc := (both (A := A) to_lower to_upper expressions literals category defined surr nc low up convertible).
  Notation well_formed_tree := (well_formed_tree expressions literals category defined surr low up convertible).
  Notation well_formed_all := (well_formed_all expressions literals category defined surr low up convertible).
  Notation matches_tree nc := (matches_tree surr nc low up).
  Notation matches_any nc := (matches_any surr nc low up).

  Notation x_step := (alt_step expressions literals category defined).
  Notation x_rejoin nc := (alt_rejoin to_lower to_upper expressions literals category defined surr nc TL0 TU0).
  Notation x_pop nc := (alt_pop to_lower to_upper expressions literals category defined surr nc TL0 TU0).
  Notation x_bar nc := (alt_bar to_lower to_upper expressions literals category defined surr nc TL0 TU0).
  Notation x_word nc := (word_adds to_lower to_upper expressions literals category defined surr nc low up convertible CX TL TU).

  Lemma good_case nc nc' b : good nc b -> good nc' (set_case b nc' nc').
  Proof. intros [A1 A2 A3 A4 A5 A6]. constructor; cbn; auto. Qed.

  (** What compiling a definition does. *)
  Definition tree_done (t : tree) (b b' : builder) : Prop :=
    match t with
    | TRegex r => eval (text r) (shift b []) b'
    | TLiteral word => b' = add_literal_at to_lower to_upper b word
    end.
  Definition tree_both (t : tree) : Prop := match t with TRegex r => forall nc, both nc r | TLiteral _ => True end.

  Definition tree_end (t : tree) : bool := match t with TRegex r => end_free r | TLiteral _ => true end.
  Definition tree_nothing (t : tree) : bool := match t with TRegex _ => false | TLiteral word => is_nil word end.

  Lemma item_lemma t nc : tree_both t -> well_formed_tree nc t -> safe_tree t = true -> forall d0 b s fo st Lp Lc, good nc b -> b_stack b = (s, fo) :: st ->
    alt d0 b s fo Lp Lc true true true -> (forall w, Lc w <-> w = []) ->
    exists b' fo' Lp' Lc' ef' no', tree_done t b b' /\ good nc b' /\ b_stack b' = (s, fo') :: st /\ alt d0 b' s fo' Lp' Lc' true ef' no' /\
      (forall w, Lp' w \/ Lc' w <-> Lp w \/ matches_tree nc t w) /\
      (fo = None -> fo' = None /\ ef' = tree_end t /\ no' = tree_nothing t) /\ (fo <> None -> fo' = None -> ef' = true /\ no' = false).
  Proof.
    intros TB W S d0 b s fo st Lp Lc G ST AL NL. destruct t as [r|word]; cbn [tree_both tree_done tree_end tree_nothing] in *.
    - change (well_formed expressions literals category defined surr nc low up convertible 0 r) in W. change (match r with ROr r s => safe r && safe s && begin_free s | _ => safe r end = true) in S.
      change (RegexSpec.matches_tree surr nc low up (TRegex r)) with (matches surr nc low up r).
      destruct (shift_new_adds to_lower to_upper surr nc TL0 TU0 b G) as (AD0 & _). set (b0 := shift b []) in *. pose proof AD0 as (G0 & S0 & _). rewrite ST in S0.
      pose proof (x_step surr nc _ _ _ _ _ _ _ _ _ _ _ _ AL AD0 (or_intror eq_refl)) as AL0. cbn [andb] in AL0.
      assert (NL0 : forall w, l_cat Lc (fun w => w = []) w <-> w = []) by (intros w; exact (l_cat_nil_l Lc (fun w => w = []) NL w)).
      destruct (TB nc) as (C1 & C0). destruct (is_or r) eqn:OR.
      + assert (SA : alts_safe r = true).
        { destruct r as [| | |r1 r2| | | | | | | |]; try discriminate OR. cbn [alts_safe] in *. rewrite !Bool.andb_true_iff in S. destruct S as [[S1 S2] S3]. rewrite S1, (safe_alts r2 S2), (safe_first r2 S2 S3). reflexivity. }
        destruct (C0 W SA d0 b0 s fo st _ _ false G0 (or_introl S0) AL0 NL0 (or_introl eq_refl))
          as (b' & fo' & Lp' & Lc' & ef' & no' & G' & ST' & AL' & EL & KO & _ & KS & EV).
        assert (KO' : exists f, fo' = Some f) by (destruct r; try discriminate OR; exact KO). destruct KO' as (f & ->).
        destruct (x_rejoin nc _ _ _ _ _ _ _ _ _ G' (KS f eq_refl) AL') as (G2 & S2 & F & GR & FR).
        exists (rejoin b'), None, (fun _ => False), (fun w => Lp' w \/ Lc' w), true, false.
        split; [rewrite <- (app_nil_r (text r)); apply EV, eval_end|]. split; [exact G2|]. split; [exact S2|]. split; [split; [apply AL|]; split; [tauto|]; exists F; auto|].
        split; [intros w; rewrite EL; tauto|]. split; [|auto]. intros _. destruct r; try discriminate OR. auto.
      + assert (W1 : well_formed expressions literals category defined surr nc low up convertible 1 r) by (apply (wf_top _ _ category); [destruct r; try exact I; discriminate OR|exact W]).
        assert (S1 : safe r = true) by (destruct r; try discriminate OR; exact S).
        destruct (C1 W1 S1 b0 G0) as (b1 & AD & _ & EV). pose proof AD as (G1 & E1 & _). rewrite S0 in E1.
        pose proof (x_step surr nc _ _ _ _ _ _ _ _ _ _ _ _ AL0 AD (or_introl eq_refl)) as AL1. cbn [andb] in AL1.
        assert (LM : forall w, l_cat (l_cat Lc (fun w => w = [])) (matches surr nc low up r) w <-> matches surr nc low up r w) by (intros w; exact (l_cat_nil_l _ _ NL0 w)).
        destruct fo as [f|].
        * destruct (x_rejoin nc _ _ _ _ _ _ _ _ _ G1 E1 AL1) as (G2 & S2 & F & GR & FR).
          exists (rejoin b1), None, (fun _ => False), (fun w => Lp w \/ l_cat (l_cat Lc (fun w => w = [])) (matches surr nc low up r) w), true, false.
          split; [rewrite <- (app_nil_r (text r)); apply EV, eval_end|]. split; [exact G2|]. split; [exact S2|]. split; [split; [apply AL|]; split; [tauto|]; exists F; auto|].
          split; [intros w; rewrite LM; tauto|]. split; [discriminate|auto].
        * assert (RJ : rejoin b1 = b1) by (unfold RegexModel.rejoin; rewrite E1; reflexivity).
          exists b1, None, Lp, (l_cat (l_cat Lc (fun w => w = [])) (matches surr nc low up r)), (end_free r), false.
          split; [rewrite <- (app_nil_r (text r)); apply EV; rewrite <- RJ at 2; apply eval_end|]. split; [exact G1|]. split; [exact E1|]. split; [exact AL1|].
          split; [intros w; rewrite LM; tauto|]. split; [auto|congruence].
    - change (word_ok surr nc low up convertible word) in W. change (RegexSpec.matches_tree surr nc low up (TLiteral word)) with (l_word surr nc low up word).
      pose proof (x_word nc word W b G) as AD. pose proof AD as (G1 & E1 & _). rewrite ST in E1.
      pose proof (x_step surr nc _ _ _ _ _ _ _ _ _ _ _ _ AL AD (or_intror eq_refl)) as AL1. cbn [andb] in AL1.
      exists (add_literal_at to_lower to_upper b word), fo, Lp, (l_cat Lc (l_word surr nc low up word)), true, (is_nil word).
      split; [reflexivity|]. split; [exact G1|]. split; [exact E1|]. split; [exact AL1|].
      split; [intros w; rewrite (l_cat_nil_l Lc _ NL); tauto|]. split; [auto|congruence].
  Qed.

  Fixpoint all_both (ds : definitions) : Prop :=
    match ds with DOne _ _ t => tree_both t | DMore _ _ t ds => tree_both t /\ all_both ds end.

  Lemma done_item lower i s t items first b b1 res :
    tree_done t (set_case (if first : bool then b else begin_or b) (item_case lower i s) (item_case lower i s)) b1 ->
    items_done lower lower items false b1 res -> items_done lower lower ((i, s, tree_text t) :: items) first b res.
  Proof.
    destruct t as [r|word]; cbn [tree_done tree_text]; intros T D; [econstructor; eassumption|]. apply items_literal. rewrite <- T. exact D.
  Qed.

  (** The definitions behind the first *)
  Lemma defs_more nc0 ds : all_both ds -> well_formed_all nc0 ds -> safe_all ds = true -> forall nc d0 b s fo st Lp Lc ef no, good nc b -> b_stack b = (s, fo) :: st ->
    alt d0 b s fo Lp Lc true ef no ->
    exists b' nc' fo' Lp' Lc' ef' no', items_done nc0 nc0 (items_text ds) false b b' /\ good nc' b' /\ b_stack b' = (s, fo') :: st /\ alt d0 b' s fo' Lp' Lc' true ef' no' /\
      (forall w, Lp' w \/ Lc' w <-> (Lp w \/ Lc w) \/ matches_any nc0 ds w) /\ (fo' = None -> ef' = true /\ no' = false).
  Proof.
    assert (ONE : forall i s0 t nc, tree_both t -> well_formed_tree (item_case nc0 i s0) t -> safe_tree t = true -> forall d0 b s fo st Lp Lc ef no, good nc b -> b_stack b = (s, fo) :: st ->
      alt d0 b s fo Lp Lc true ef no ->
      exists b' fo' Lp' Lc' ef' no', tree_done t (set_case (begin_or b) (item_case nc0 i s0) (item_case nc0 i s0)) b' /\ good (item_case nc0 i s0) b' /\ b_stack b' = (s, fo') :: st /\ alt d0 b' s fo' Lp' Lc' true ef' no' /\
        (forall w, Lp' w \/ Lc' w <-> (Lp w \/ Lc w) \/ matches_tree (item_case nc0 i s0) t w) /\ (fo' = None -> ef' = true /\ no' = false)).
    { intros i s0 t nc TB W S d0 b s fo st Lp Lc ef no G ST AL.
      destruct (x_bar nc _ _ _ _ _ _ _ _ _ G (or_introl ST) AL) as (f & G2 & ST2 & AL2).
      destruct (item_lemma t (item_case nc0 i s0) TB W S d0 (set_case (begin_or b) (item_case nc0 i s0) (item_case nc0 i s0)) s (Some f) st _ _ (good_case nc _ _ G2) ST2 AL2 ltac:(tauto))
        as (b' & fo' & Lp' & Lc' & ef' & no' & T & G' & ST' & AL' & EL & _ & K).
      exists b', fo', Lp', Lc', ef', no'. split; [exact T|]. split; [exact G'|]. split; [exact ST'|]. split; [exact AL'|]. split; [exact EL|]. apply K. discriminate. }
    induction ds as [i s0 t|i s0 t ds IH]; intros AB W S nc d0 b s fo st Lp Lc ef no G ST AL; cbn [all_both items_text] in *.
    - destruct (ONE i s0 t nc AB W S d0 b s fo st Lp Lc ef no G ST AL) as (b' & fo' & Lp' & Lc' & ef' & no' & T & G' & ST' & AL' & EL & K).
      exists b', (item_case nc0 i s0), fo', Lp', Lc', ef', no'. split; [eapply done_item; [exact T|constructor]|]. auto 10.
    - destruct W as (W1 & W2). cbn [safe_all] in S. apply andb_prop in S. destruct S as [S1 S2]. destruct AB as [AB1 AB2].
      destruct (ONE i s0 t nc AB1 W1 S1 d0 b s fo st Lp Lc ef no G ST AL) as (b1 & fo1 & Lp1 & Lc1 & ef1 & no1 & T & G1 & ST1 & AL1 & EL1 & _).
      destruct (IH AB2 W2 S2 _ d0 b1 s fo1 st Lp1 Lc1 ef1 no1 G1 ST1 AL1) as (b' & nc' & fo' & Lp' & Lc' & ef' & no' & D & G' & ST' & AL' & EL & K).
      exists b', nc', fo', Lp', Lc', ef', no'. split; [eapply done_item; [exact T|exact D]|]. split; [exact G'|]. split; [exact ST'|]. split; [exact AL'|]. split; [|exact K].
      intros w. rewrite EL, EL1. change (matches_any nc0 (DMore i s0 t ds) w) with (matches_tree (item_case nc0 i s0) t w \/ matches_any nc0 ds w). tauto.
  Qed.

  Definition defs_end (ds : definitions) : bool := match ds with DOne _ _ t => tree_end t | DMore _ _ _ _ => true end.
  Definition defs_nothing (ds : definitions) : bool := match ds with DOne _ _ t => tree_nothing t | DMore _ _ _ _ => false end.
  Lemma defs_flags name ds : begin_free (RDefs name ds) = true /\ end_free (RDefs name ds) = defs_end ds /\ nothing (RDefs name ds) = defs_nothing ds.
  Proof. destruct ds as [i s [r|word]|i s t ds]; auto. Qed.

  Lemma both_defs name ds : all_both ds -> forall nc, both nc (RDefs name ds).
  Proof.
    intros AB nc.
    assert (C : claim1 (A := A) to_lower to_upper expressions literals category defined surr nc low up convertible (RDefs name ds)).
    { intros (W1 & W2 & W3) S b G. change (safe_all ds = true) in S.
      set (bb := push (push b)). set (s := b_cur b). set (st := (s, None) :: b_stack b).
      assert (GB : good nc bb) by (destruct G; constructor; assumption).
      assert (ALT : alt (b_nfa b) bb s None (fun _ => False) (fun w => w = []) true true true).
      { split; [apply (gb_cur _ _ _ G)|]. split; [tauto|]. exists gempty. split; [apply grows_refl, (gb_ok _ _ _ G)|].
        apply (frag_ext _ _ _ _ _ _ _ _ _ _ _ (frag_empty (b_cur b))); [tauto| |tauto]. intros q. unfold fresh. cbn [bb push with_stack b_nfa]. lia. }
      assert (D : exists b' nc' fo' Lp' Lc' ef' no', items_done nc nc (items_text ds) true bb b' /\ good nc' b' /\ b_stack b' = (s, fo') :: st /\ alt (b_nfa b) b' s fo' Lp' Lc' true ef' no' /\
        (forall w, Lp' w \/ Lc' w <-> matches_any nc ds w) /\ (fo' = None -> ef' = defs_end ds /\ no' = defs_nothing ds) /\ (forall f, fo' = Some f -> defs_end ds = true /\ defs_nothing ds = false)).
      { assert (FIRST : forall i s0 t, tree_both t -> well_formed_tree (item_case nc i s0) t -> safe_tree t = true ->
          exists b' Lp' Lc', tree_done t (set_case bb (item_case nc i s0) (item_case nc i s0)) b' /\ good (item_case nc i s0) b' /\ b_stack b' = (s, None) :: st /\
            alt (b_nfa b) b' s None Lp' Lc' true (tree_end t) (tree_nothing t) /\ (forall w, Lp' w \/ Lc' w <-> matches_tree (item_case nc i s0) t w)).
        { intros i s0 t TB W SF. destruct (item_lemma t (item_case nc i s0) TB W SF (b_nfa b) (set_case bb (item_case nc i s0) (item_case nc i s0)) s None st _ _ (good_case nc _ _ GB) eq_refl ALT ltac:(tauto))
            as (b' & fo' & Lp' & Lc' & ef' & no' & T & G' & ST' & AL' & EL & K & _).
          destruct (K eq_refl) as (-> & -> & ->). exists b', Lp', Lc'. split; [exact T|]. split; [exact G'|]. split; [exact ST'|]. split; [exact AL'|]. intros w. rewrite EL. tauto. }
        destruct ds as [i s0 t|i s0 t ds]; cbn [all_both items_text defs_end defs_nothing] in *.
        - destruct (FIRST i s0 t AB W3 S) as (b' & Lp' & Lc' & T & G' & ST' & AL' & EL).
          exists b', (item_case nc i s0), None, Lp', Lc', (tree_end t), (tree_nothing t). split; [eapply done_item; [exact T|constructor]|]. split; [exact G'|]. split; [exact ST'|]. split; [exact AL'|].
          split; [exact EL|]. split; [auto|discriminate].
        - destruct W3 as (W3 & W4). cbn [safe_all] in S. apply andb_prop in S. destruct S as [S1 S2]. destruct AB as [AB1 AB2].
          destruct (FIRST i s0 t AB1 W3 S1) as (b1 & Lp1 & Lc1 & T & G1 & ST1 & AL1 & EL1).
          destruct (defs_more nc ds AB2 W4 S2 _ _ b1 s None st Lp1 Lc1 _ _ G1 ST1 AL1) as (b' & nc' & fo' & Lp' & Lc' & ef' & no' & D & G' & ST' & AL' & EL & K).
          exists b', nc', fo', Lp', Lc', ef', no'. split; [eapply done_item; [exact T|exact D]|]. split; [exact G'|]. split; [exact ST'|]. split; [exact AL'|]. split; [|auto].
          intros w. rewrite EL, EL1. change (matches_any nc (DMore i s0 t ds) w) with (matches_tree (item_case nc i s0) t w \/ matches_any nc ds w). tauto. }
      destruct D as (b' & nc' & fo' & Lp' & Lc' & ef' & no' & D & G' & ST' & AL' & EL & K0 & K1).
      pose proof (good_case nc' nc b' G') as GC. set (bc := set_case b' nc nc) in *.
      assert (NE : defined name <> []) by (rewrite W2; destruct ds; discriminate).
      destruct (defs_flags name ds) as (FB & FE & FN).
      assert (P : exists F, good nc (pop bc) /\ b_stack (pop bc) = st /\ grows (b_nfa b) (b_nfa (pop bc)) F /\
        frag F (fresh (b_nfa b) (b_nfa (pop bc))) s (b_cur (pop bc)) (matches_any nc ds) true (defs_end ds) (defs_nothing ds)).
      { destruct fo' as [f|].
        - destruct (x_pop nc _ bc _ _ _ _ _ _ _ GC ST' AL') as (G2 & S2 & _ & F & GR & FR). destruct (K1 f eq_refl) as (-> & ->).
          exists F. split; [exact G2|]. split; [exact S2|]. split; [exact GR|]. apply (frag_ext _ _ _ _ _ _ _ _ _ _ _ FR); [tauto|tauto|]. intros w. symmetry. apply EL.
        - destruct (K0 eq_refl) as (-> & ->). destruct AL' as (_ & NP & F & GR & FR). exists F. rewrite (pop_none to_lower to_upper bc s st ST').
          split; [destruct GC; constructor; assumption|]. split; [reflexivity|]. split; [exact GR|]. apply (frag_ext _ _ _ _ _ _ _ _ _ _ _ FR); [tauto|tauto|]. intros w. rewrite <- EL. specialize (NP w). tauto. }
      destruct P as (F & G2 & S2 & GR & FR). exists (pop (pop bc)). rewrite (pop_none to_lower to_upper (pop bc) s (b_stack b) S2). split; [|split].
      - split; [destruct G2; constructor; assumption|]. split; [reflexivity|]. exists F. rewrite FB, FE, FN. split; [exact GR|exact FR].
      - intros _. reflexivity.
      - intros tail res H. cbn [text app]. rewrite <- app_assoc. cbn [app]. apply (eval_defs _ _ _ _ _ _ name tail b b' res W1 NE).
        + rewrite (gb_lower _ _ _ G), (gb_upper _ _ _ G), W2. exact D.
        + rewrite (gb_lower _ _ _ G), (gb_upper _ _ _ G). fold bc. rewrite (pop_none to_lower to_upper (pop bc) s (b_stack b) S2). exact H. }
    split; [exact C|]. apply claim0_of_1; [exact I|exact C].
  Qed.

  Theorem claims r : forall nc, both nc r.
  Proof.
    apply (re_all (fun r => forall nc, both nc r) tree_both all_both); intros; cbn [tree_both all_both]; auto.
    - apply both_empty.
    - apply both_atom; assumption.
    - apply both_cat; auto.
    - apply both_or; auto.
    - apply both_star; auto.
    - apply both_plus; auto.
    - apply both_opt; auto.
    - apply both_group; auto.
    - apply both_name; auto.
    - apply both_word; assumption.
    - apply both_chars; assumption.
    - apply both_defs; auto.
  Qed.

  Theorem regex_lemma nocase (r : re) (d : ndfa A) (init : nat) : ndfa_ok d -> (init < count_states d)%nat ->
    well_formed expressions literals category defined surr nocase low up convertible 0 r -> safe_whole r = true -> (init = 0%nat \/ is_or r = false) ->
    exists d' final fuel0, (forall fuel, (fuel0 <= fuel)%nat ->
        add_regex to_lower to_upper expressions literals category defined fuel d surr nocase init (text r) = Some (final, d')) /\
      ndfa_ok d' /\ n_accept d' = n_accept d /\ (count_states d <= final < count_states d')%nat /\
      (forall q w, (q < count_states d)%nat -> path d' q w final <-> exists u v, w = u ++ v /\ path d q u init /\ matches surr nocase low up r v) /\
      (forall q q' w, (q < count_states d)%nat -> (q' < count_states d)%nat -> path d' q w q' <-> path d q w q').
  Proof. intros OK LI. eapply whole_lemma; eauto. apply claims. Qed.
End RegexDefsProofs.
