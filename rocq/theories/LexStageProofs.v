(** The automaton of the lexer stage accepts the words of the definitions. *)
From Verif Require Import Base OrdMap SymbolSetModel SymbolSetSpec SymbolSetProofs SymbolMapModel SymbolMapSpec SymbolMapProofs
  NdfaModel NdfaSpec NdfaProofs TextModel TextSpec LexerModel LexerSpec RegexModel RegexSpec RegexGraph RegexBuildProofs RegexParseProofs RegexProofs RegexDefsProofs RegexTokenProofs
  LexStageModel LexStageSpec.
Local Open Scope Z_scope.

Section Paths.
  Context {A : Type}.
  Implicit Types d : ndfa A.

  (** One more silent transition, to a state from which there is no way back *)
  Lemma join_paths d c f : ndfa_ok d -> (c < count_states d)%nat -> (f < count_states d)%nat -> (forall w, ~ path d f w c) ->
    let d' := add_transition d c [] f in
    ndfa_ok d' /\ count_states d' = count_states d /\ n_accept d' = n_accept d /\
    forall q w r, path d' q w r <-> path d q w r \/ exists u v, w = u ++ v /\ path d q u c /\ path d f v r.
  Proof.
    intros OK LC LF NB d'. destruct (add_transition_grows d c [] f OK nil_normal LC LF) as (GR & CT). fold d' in GR, CT.
    split; [apply GR|]. split; [exact CT|]. split; [apply GR|]. intros q w r. split.
    - intros P. apply path_gpath in P. induction P as [q|q r w z E P IH|q t r x w z E C P IH].
      + left. constructor.
      + apply (gr_edges _ _ _ GR) in E as [E|(-> & _ & ->)].
        * assert (ST : path d q [] r) by (apply path_gpath; eapply gp_eps; [exact E|constructor]).
          destruct IH as [IH|(u & v & -> & P1 & P2)].
          -- left. apply path_gpath. eapply gp_eps; [exact E|]. apply path_gpath, IH.
          -- right. exists u, v. split; [reflexivity|]. split; [|exact P2]. apply path_gpath. eapply gp_eps; [exact E|]. apply path_gpath, P1.
        * destruct IH as [IH|(u & v & -> & P1 & P2)]; [|destruct (NB _ P1)]. right. exists [], w. split; [reflexivity|]. split; [constructor|exact IH].
      + apply (gr_edges _ _ _ GR) in E as [E|(-> & -> & ->)]; [|discriminate C]. destruct IH as [IH|(u & v & -> & P1 & P2)].
        * left. apply path_gpath. eapply gp_sym; [exact E|exact C|]. apply path_gpath, IH.
        * right. exists (x :: u), v. split; [reflexivity|]. split; [|exact P2]. apply path_gpath. eapply gp_sym; [exact E|exact C|]. apply path_gpath, P1.
    - assert (SUB : forall a v b, path d a v b -> gpath (edges d') a v b).
      { intros a v b P. apply path_gpath in P. revert P. apply gpath_mono. intros x t y E. apply (gr_edges _ _ _ GR). auto. }
      intros [P|(u & v & -> & P1 & P2)]; apply path_gpath; [apply SUB, P|]. eapply gpath_app; [apply SUB, P1|].
      eapply gp_eps; [|apply SUB, P2]. apply (gr_edges _ _ _ GR). right. split; [reflexivity|split; reflexivity].
  Qed.

  (** Actions stay where they are when only transitions and states are added. *)
  Lemma same_actions_in d d' q : accept_in_range d -> n_accept d' = n_accept d -> ndfa_ok d -> (count_states d <= count_states d')%nat ->
    actions_for_state d' q = actions_for_state d q.
  Proof.
    intros R E OK L. unfold actions_for_state. rewrite E. destruct (Nat.leb_spec (count_states d) q) as [X|X].
    - destruct (Nat.leb (count_states d') q); [reflexivity|]. destruct (mfind Nat.ltb q (n_accept d)) as [l|] eqn:F; [|reflexivity].
      apply (mfind_in _ natltb_strict) in F; [|apply OK]. apply (in_map fst) in F. apply R in F. cbn [fst] in F. lia.
    - destruct (Nat.leb_spec (count_states d') q); [lia|reflexivity].
  Qed.

  Lemma same_accepts d d' q w x : ndfa_ok d -> accept_in_range d -> n_accept d' = n_accept d -> (count_states d <= count_states d')%nat -> (q < count_states d)%nat ->
    (forall q' w, (q' < count_states d)%nat -> path d' q w q' <-> path d q w q') -> accepts d' q w x <-> accepts d q w x.
  Proof.
    intros OK R E L Q P. unfold accepts. split.
    - intros (q' & P' & I). rewrite (same_actions_in d d' q' R E OK L) in I.
      assert (q' < count_states d)%nat by (unfold actions_for_state in I; destruct (Nat.leb_spec (count_states d) q'); [destruct I|assumption]).
      exists q'. split; [apply P; assumption|exact I].
    - intros (q' & P' & I). assert (q' < count_states d)%nat by (unfold actions_for_state in I; destruct (Nat.leb_spec (count_states d) q'); [destruct I|assumption]).
      exists q'. rewrite (same_actions_in d d' q' R E OK L). split; [apply P; assumption|exact I].
  Qed.
End Paths.

Section StageProofs.
  Context (expressions literals : list Z -> option (list Z)) (category : list Z -> option symbol_set)
    (defined : list Z -> list (bool * bool * token)) (used : Z -> bool).
  Notation builder := (builder (A := language_action)).
  Notation good := (good (A := language_action) false).
  Notation tree_ok := (tree_ok expressions literals category defined false).
  Notation tree_matches := (tree_matches false).
  Notation add_at := (add_at expressions literals category defined).
  Notation LZ := (eq_refl : lower_case [] = []).
  Notation UZ := (eq_refl : upper_case [] = []).

  Lemma wf_of_ok nc t : tree_ok nc t -> well_formed_tree expressions literals category defined false low up case_safe nc t /\ safe_tree t = true.
  Proof.
    intros T. destruct t as [r|word]; [exact T|]. split; [|reflexivity]. apply Forall_forall. intros x X.
    cbn [RegexSpec.tree_ok] in T. rewrite Forall_forall in T. split; [apply T, X|apply single_chars].
  Qed.

  (** One bland symbol, behind the current state *)
  Lemma bland_item nc nc' (b : builder) (t : tree) : good nc b -> tree_ok nc' t ->
    exists b1 fuel0, (forall fuel, (fuel0 <= fuel)%nat -> add_at fuel (set_case (push b) nc' nc') (tree_text t) = Some b1) /\
      let b' := pop lower_case upper_case b1 in
      good nc' b' /\ b_stack b' = b_stack b /\ n_accept (b_nfa b') = n_accept (b_nfa b) /\ (count_states (b_nfa b) <= count_states (b_nfa b'))%nat /\
      (forall q w, (q < count_states (b_nfa b))%nat -> path (b_nfa b') q w (b_cur b') <-> exists u v, w = u ++ v /\ path (b_nfa b) q u (b_cur b) /\ tree_matches nc' t v) /\
      (forall q r w, (q < count_states (b_nfa b))%nat -> (r < count_states (b_nfa b))%nat -> path (b_nfa b') q w r <-> path (b_nfa b) q w r).
  Proof.
    intros G T. destruct (wf_of_ok nc' t T) as (W & S).
    set (b0 := set_case (push b) nc' nc').
    assert (G0 : good nc' b0) by (destruct G; constructor; cbn; auto).
    assert (ALT : alt (b_nfa b) b0 (b_cur b) None (fun _ => False) (fun w => w = []) true true true).
    { split; [apply (gb_cur _ _ _ G)|]. split; [tauto|]. exists gempty. split; [apply grows_refl, (gb_ok _ _ _ G)|].
      apply (frag_ext _ _ _ _ _ _ _ _ _ _ _ (frag_empty (b_cur b))); [tauto| |tauto]. intros q. unfold fresh. cbn [b0 set_case push with_stack b_nfa]. lia. }
    assert (TB : tree_both lower_case upper_case expressions literals category defined false low up case_safe (A := language_action) t).
    { destruct t as [r|word]; [|exact I]. intros n. apply (claims lower_case upper_case expressions literals category defined false low up case_safe); [vm_compute; reflexivity|vm_compute; reflexivity|exact case_safe_ext|exact lower_facts|exact upper_facts]. }
    destruct (item_lemma lower_case upper_case expressions literals category defined false low up case_safe ltac:(vm_compute; reflexivity) ltac:(vm_compute; reflexivity) case_safe_ext lower_facts upper_facts
      t nc' TB W S (b_nfa b) b0 (b_cur b) None (b_stack b) _ _ G0 eq_refl ALT ltac:(tauto)) as (b1 & fo' & Lp' & Lc' & ef' & no' & D & G1 & ST1 & AL1 & EL & K & _).
    destruct (K eq_refl) as (-> & -> & ->). destruct AL1 as (_ & NP & F & GR & FR).
    assert (RUN : exists fuel0, forall fuel, (fuel0 <= fuel)%nat -> add_at fuel b0 (tree_text t) = Some b1).
    { destruct t as [r|word]; cbn [tree_done tree_text LexStageModel.add_at] in *.
      - destruct D as (k & D). exists k. intros fuel L. eapply run_more; [exact L|exact D].
      - exists O. intros _ _. rewrite D. reflexivity. }
    destruct RUN as (fuel0 & RUN). exists b1, fuel0. split; [exact RUN|]. cbv zeta. rewrite (pop_none lower_case upper_case b1 (b_cur b) (b_stack b) ST1).
    cbn [with_stack at_state b_stack b_nfa b_cur b_next b_prev b_surr b_lower b_upper].
    split; [destruct G1; constructor; assumption|]. split; [reflexivity|]. split; [apply GR|]. split; [apply GR|].
    assert (LM : forall w, Lc' w <-> tree_matches nc' t w).
    { intros w. specialize (EL w). specialize (NP w). assert (EM : tree_matches nc' t w <-> matches_tree false nc' low up t w) by (destruct t; reflexivity). tauto. }
    destruct (tree_nothing t) eqn:NO.
    - destruct t as [r|[|c word]]; try discriminate NO. cbn [tree_done add_literal_at fold_left] in D. subst b1.
      change (b_nfa b0) with (b_nfa b). change (b_cur b0) with (b_cur b). split; [|tauto]. intros q w Q. split.
      + intros P. exists w, []. rewrite app_nil_r. split; [reflexivity|]. split; [exact P|reflexivity].
      + intros (u & v & -> & P & X). assert (v = []) by exact X. subst v. rewrite app_nil_r. exact P.
    - destruct (added_paths (b_nfa b) b1 F (b_cur b) Lc' _ _ (gb_ok _ _ _ G) (gb_cur _ _ _ G) GR FR eq_refl) as (LE & P1 & P2). split; [|exact P2].
      intros q w Q. rewrite (P1 q w Q). split; intros (u & v & E & X & Y); exists u, v; (split; [exact E|split; [exact X|apply LM, Y]]).
  Qed.

  (** ** The ignored symbols *)
  Notation unused_ignored := (unused_ignored used).
  Definition ignored_words (defs : list lex_def) (w : list Z) : Prop :=
    exists i, In i defs /\ unused_ignored i = true /\ tree_matches (ld_insensitive i) (ld_tree i) w.
  Definition other_words (defs : list lex_def) (w : list Z) (a : language_action) : Prop :=
    exists i, In i defs /\ ld_unit i <> unit_null /\ unused_ignored i = false /\ tree_matches (ld_insensitive i) (ld_tree i) w /\ a = mkLA (ld_symbol i) (ld_unit i) (ld_weak i).

  (** The common final state: nothing behind it *)
  Definition dead (d : ndfa language_action) (f c : nat) : Prop :=
    (f < count_states d)%nat /\ (forall w, path d f w f -> w = []) /\ (forall w, ~ path d f w c) /\ (forall w, ~ path d f w 0%nat) /\ forall w x, ~ accepts d f w x.

  Definition at_final (d : ndfa language_action) (fo : option nat) (w : list Z) : Prop := match fo with None => False | Some f => path d 0 w f end.

  Record inv (b : builder) (first : bool) (sym : Z) (defs : list lex_def) : Prop := {
    i_good : exists nc, good nc b;
    i_range : accept_in_range (b_nfa b);
    i_count : (0 < count_states (b_nfa b))%nat;
    i_zero : forall w, path (b_nfa b) 0 w 0%nat -> w = [];
    i_acc : forall w x, accepts (b_nfa b) 0 w x <-> other_words defs w x;
    i_sym : sym = ignored_symbol used defs;
    i_first : first = negb (existsb unused_ignored defs);
    i_stack : exists fo, b_stack b = [(0%nat, fo)] /\
      (if first then fo = None /\ b_cur b = 0%nat
       else (forall w, ignored_words defs w <-> at_final (b_nfa b) fo w \/ path (b_nfa b) 0 w (b_cur b)) /\
            match fo with None => True | Some f => dead (b_nfa b) f (b_cur b) end) }.

  (** Before an ignored symbol: the builder is back at the first state. *)
  Lemma before_ignored b first sym defs : inv b first sym defs ->
    let b2 := if first then b else begin_or lower_case upper_case b in
    (exists nc, good nc b2) /\ accept_in_range (b_nfa b2) /\ (0 < count_states (b_nfa b2))%nat /\ (forall w, path (b_nfa b2) 0 w 0%nat -> w = []) /\
    (forall w x, accepts (b_nfa b2) 0 w x <-> other_words defs w x) /\ b_cur b2 = 0%nat /\
    exists fo, b_stack b2 = [(0%nat, fo)] /\ (forall w, ignored_words defs w <-> at_final (b_nfa b2) fo w) /\
      match fo with None => True | Some f => dead (b_nfa b2) f 0 end.
  Proof.
    intros [(nc & G) R C Z AC _ FI (fo & ST & X)] b2. destruct first.
    - destruct X as (-> & X). subst b2. repeat (split; [eauto|]). exists None. split; [exact ST|]. split; [|exact I].
      intros w. cbn [at_final]. split; [|intros []]. intros (i & J & U & _). symmetry in FI. apply Bool.negb_true_iff in FI.
      assert (existsb unused_ignored defs = true) by (apply existsb_exists; exists i; auto). congruence.
    - destruct X as (IW & DE). subst b2. unfold begin_or. rewrite ST. rewrite ST. pose proof (gb_ok _ _ _ G) as OK. pose proof (gb_cur _ _ _ G) as LC. destruct fo as [f|].
      + destruct DE as (LF & D1 & D2 & D3 & D4).
        destruct (join_paths (b_nfa b) (b_cur b) f OK LC LF D2) as (OK' & CT & EA & P). set (d' := add_transition (b_nfa b) (b_cur b) [] f) in *.
        cbn [with_nfa at_state b_nfa b_cur b_next b_prev b_surr b_lower b_upper b_stack].
        assert (PF : forall w r, path d' f w r <-> path (b_nfa b) f w r).
        { intros w r. rewrite P. split; [|auto]. intros [Y|(u & v & _ & Y & _)]; [exact Y|destruct (D2 _ Y)]. }
        assert (P0 : forall q w, path d' q w 0%nat <-> path (b_nfa b) q w 0%nat).
        { intros q w. rewrite P. split; [|auto]. intros [Y|(u & v & _ & _ & Y)]; [exact Y|destruct (D3 _ Y)]. }
        assert (AF : forall q, actions_for_state d' q = actions_for_state (b_nfa b) q) by (intros q; apply same_actions_in; [exact R|exact EA|exact OK|lia]).
        split; [exists nc; destruct G; constructor; cbn; auto; lia|].
        split; [intros q Q; rewrite EA in Q; rewrite CT; apply R, Q|]. split; [lia|]. split; [intros w Y; apply P0, Z in Y; exact Y|]. split.
        { intros w x. rewrite <- AC. unfold accepts. split.
          - intros (q & Y & I). rewrite AF in I. apply P in Y as [Y|(u & v & _ & _ & Y)]; [exists q; auto|]. destruct (D4 v x). exists q. auto.
          - intros (q & Y & I). exists q. rewrite AF, P. auto. }
        split; [reflexivity|]. exists (Some f). split; [exact ST|]. split.
        * intros w. rewrite IW. cbn [at_final]. rewrite P. split; intros [Y|Y]; auto.
          -- right. exists w, []. rewrite app_nil_r. split; [reflexivity|]. split; [exact Y|constructor].
          -- destruct Y as (u & v & -> & Y1 & Y2). apply D1 in Y2 as ->. rewrite app_nil_r. auto.
        * split; [lia|]. split; [intros w Y; apply PF in Y; auto|]. split; [intros w Y; apply PF in Y; exact (D3 _ Y)|]. split; [intros w Y; apply PF in Y; exact (D3 _ Y)|].
          intros w x (q & Y & I). apply PF in Y. rewrite AF in I. apply (D4 w x). exists q. auto.
      + destruct (shift_new_adds lower_case upper_case false nc eq_refl eq_refl b G) as ((G' & ST' & F & GR & FR) & _). set (b' := shift lower_case upper_case b []) in *.
        destruct (added_paths (b_nfa b) b' F (b_cur b) _ _ _ OK LC GR FR eq_refl) as (LE & P1 & P2).
        cbn [with_nfa at_state with_stack b_nfa b_cur b_next b_prev b_surr b_lower b_upper b_stack].
        assert (NO : forall w r, path (b_nfa b') (b_cur b') w r -> w = [] /\ r = b_cur b').
        { intros w r Y. apply path_gpath in Y.
          assert (NE : forall t r, ~ edges (b_nfa b') (b_cur b') t r).
          { intros t r0 E. apply (gr_edges _ _ _ GR) in E as [E|E]; [|exact (fr_out _ _ _ _ _ _ _ _ FR eq_refl _ _ E)]. destruct (edges_lt _ _ _ _ OK E). lia. }
          inversion Y; subst; auto; exfalso; eapply NE; eassumption. }
        assert (EA := gr_accept _ _ _ GR).
        split; [exists nc; destruct G'; constructor; cbn; auto; lia|].
        split; [intros q Q; rewrite EA in Q; specialize (R q Q); lia|]. split; [lia|]. split; [intros w Y; apply P2 in Y; auto|]. split.
        { intros w x. rewrite <- AC. apply same_accepts; [exact OK|exact R|exact EA|lia|exact C|]. intros q' w' Q. apply P2; assumption. }
        split; [reflexivity|]. exists (Some (b_cur b')). split; [reflexivity|]. split.
        * intros w. rewrite IW. cbn [at_final]. rewrite (P1 _ _ C). split.
          -- intros [[]|Y]. exists w, []. rewrite app_nil_r. auto.
          -- intros (u & v & -> & Y & ->). rewrite app_nil_r. auto.
        * split; [lia|]. split; [intros w Y; apply NO in Y; tauto|]. split; [intros w Y; apply NO in Y as (_ & Y); lia|]. split; [intros w Y; apply NO in Y as (_ & Y); lia|].
          intros w x (q & Y & I). apply NO in Y as (_ & ->). rewrite (same_actions_in (b_nfa b) (b_nfa b') _ R EA OK ltac:(lia)) in I.
          unfold actions_for_state in I. destruct (Nat.leb_spec (count_states (b_nfa b)) (b_cur b')); [destruct I|lia].
  Qed.

  Lemma ignored_symbol_app defs i : ignored_symbol used (defs ++ [i]) =
    (if existsb unused_ignored defs then ignored_symbol used defs else if unused_ignored i then ld_symbol i else -1).
  Proof.
    unfold ignored_symbol. induction defs as [|j defs IH]; cbn [app find existsb]; [destruct (unused_ignored i); reflexivity|].
    destruct (unused_ignored j); [reflexivity|exact IH].
  Qed.

  Lemma ignored_symbol_none defs : existsb unused_ignored defs = false -> ignored_symbol used defs = -1.
  Proof.
    unfold ignored_symbol. induction defs as [|j defs IH]; cbn [find existsb]; [reflexivity|]. destruct (unused_ignored j); [discriminate|exact IH].
  Qed.

  Lemma ignored_symbol_pos defs : Forall (fun i => 0 <= ld_symbol i) defs -> existsb unused_ignored defs = true -> 0 <= ignored_symbol used defs.
  Proof.
    unfold ignored_symbol. induction defs as [|j defs IH]; cbn [find existsb]; [discriminate|]. intros F E. inversion F; subst. destruct (unused_ignored j); [assumption|apply IH; assumption].
  Qed.

  Lemma other_words_app defs i w x : other_words (defs ++ [i]) w x <-> other_words defs w x \/ other_words [i] w x.
  Proof.
    unfold other_words. split.
    - intros (j & J & X). apply in_app_iff in J as [J|J]; [left|right]; exists j; auto.
    - intros [(j & J & X)|(j & J & X)]; exists j; (split; [apply in_app_iff; auto|exact X]).
  Qed.
  Lemma ignored_words_app defs i w : ignored_words (defs ++ [i]) w <-> ignored_words defs w \/ ignored_words [i] w.
  Proof.
    unfold ignored_words. split.
    - intros (j & J & X). apply in_app_iff in J as [J|J]; [left|right]; exists j; auto.
    - intros [(j & J & X)|(j & J & X)]; exists j; (split; [apply in_app_iff; auto|exact X]).
  Qed.

  Notation stage_item := (stage_item expressions literals category defined used).
  Notation stage_items := (stage_items expressions literals category defined used).
  Notation def_ok := (def_ok expressions literals category defined).

  (** One definition *)
  Lemma item_step b first sym defs i : inv b first sym defs -> Forall (fun i => 0 <= ld_symbol i) defs -> def_ok i ->
    exists b' first' sym' fuel0, (forall fuel, (fuel0 <= fuel)%nat -> stage_item fuel (b, first, sym) (def_item i) = Some (b', first', sym')) /\ inv b' first' sym' (defs ++ [i]).
  Proof.
    intros V PS (TO & SP). unfold LexStageModel.stage_item. cbn [def_item li_unit li_symbol li_insensitive li_token li_weak].
    change (bland used (def_item i)) with (unused_ignored i). destruct (Z.eqb_spec (ld_unit i) unit_null) as [NU|NU].
    - exists b, first, sym, O. split; [reflexivity|]. assert (UI : unused_ignored i = false) by (unfold LexStageSpec.unused_ignored; rewrite NU; reflexivity).
      destruct V as [G R C Z AC SY FI (fo & ST & X)]. constructor; try assumption.
      + intros w x. rewrite other_words_app, AC. split; [auto|]. intros [Y|(j & [<-|[]] & N & _)]; [exact Y|contradiction].
      + rewrite ignored_symbol_app, UI, SY. destruct (existsb unused_ignored defs) eqn:E; [reflexivity|]. apply ignored_symbol_none, E.
      + rewrite existsb_app. cbn [existsb]. rewrite UI, !Bool.orb_false_r. exact FI.
      + exists fo. split; [exact ST|]. destruct first; [exact X|]. destruct X as (IW & DE). split; [|exact DE]. intros w. rewrite ignored_words_app, IW. split; [|auto].
        intros [Y|(j & [<-|[]] & N & _)]; [exact Y|congruence].
    - specialize (TO NU). destruct (unused_ignored i) eqn:UI.
      + pose proof (before_ignored b first sym defs V) as B. cbv zeta in B. set (b2 := if first then b else begin_or lower_case upper_case b) in *.
        destruct B as ((nc & G2) & R2 & C2 & Z2 & AC2 & CU2 & fo & ST2 & IW2 & DE2).
        destruct (bland_item nc (ld_insensitive i) b2 (ld_tree i) G2 TO) as (b1 & fuel0 & RUN & G' & ST' & EA & CT & P1 & P2).
        set (b' := pop lower_case upper_case b1) in *. exists b', false, (if sym <? 0 then ld_symbol i else sym), fuel0. split.
        { intros fuel L. rewrite (RUN fuel L). reflexivity. }
        rewrite CU2 in P1. pose proof (gb_ok _ _ _ G2) as OK2.
        assert (SA : forall q w x, (q < count_states (b_nfa b2))%nat -> accepts (b_nfa b') q w x <-> accepts (b_nfa b2) q w x).
        { intros q w x Q. apply same_accepts; [exact OK2|exact R2|exact EA|exact CT|exact Q|]. intros q' w' Q'. apply P2; assumption. }
        constructor.
        * exists (ld_insensitive i). exact G'.
        * intros q Q. rewrite EA in Q. specialize (R2 q Q). lia.
        * lia.
        * intros w Y. apply P2 in Y; auto.
        * intros w x. rewrite (SA _ _ _ C2), AC2, other_words_app. split; [auto|]. intros [Y|(j & [<-|[]] & _ & N & _)]; [exact Y|congruence].
        * rewrite ignored_symbol_app, UI. rewrite (i_sym _ _ _ _ V). destruct (existsb unused_ignored defs) eqn:E.
          -- pose proof (ignored_symbol_pos defs PS E). destruct (Z.ltb_spec (ignored_symbol used defs) 0); [lia|reflexivity].
          -- rewrite (ignored_symbol_none defs E). reflexivity.
        * rewrite existsb_app. cbn [existsb]. rewrite UI, Bool.orb_true_r. reflexivity.
        * exists fo. split; [rewrite ST', ST2; reflexivity|]. split.
          -- intros w. rewrite ignored_words_app, IW2.
             assert (E1 : at_final (b_nfa b') fo w <-> at_final (b_nfa b2) fo w) by (destruct fo as [f|]; [apply P2; [exact C2|apply DE2]|reflexivity]).
             rewrite E1. assert (E2 : path (b_nfa b') 0 w (b_cur b') <-> ignored_words [i] w); [|tauto].
             rewrite (P1 _ _ C2). split.
             ++ intros (u & v & -> & Y & M). apply Z2 in Y as ->. exists i. split; [left; reflexivity|]. split; [exact UI|exact M].
             ++ intros (j & [<-|[]] & _ & M). exists [], w. split; [reflexivity|]. split; [constructor|exact M].
          -- destruct fo as [f|]; [|exact I]. destruct DE2 as (LF & D1 & D2 & D3 & D4). split; [lia|].
             split; [intros w Y; apply P2 in Y; auto|]. split; [intros w Y; apply (P1 _ _ LF) in Y as (u & v & _ & Y & _); exact (D3 _ Y)|].
             split; [intros w Y; apply P2 in Y; [exact (D3 _ Y)|exact LF|exact C2]|]. intros w x Y. apply (SA _ _ _ LF) in Y. exact (D4 _ _ Y).
      + destruct V as [(nc & G) R C Z AC SY FI (fo & ST & X)]. pose proof (gb_ok _ _ _ G) as OK. pose proof (gb_cur _ _ _ G) as LC.
        destruct (token_lemma expressions literals category defined false (ld_insensitive i) (ld_tree i) (mkLA (ld_symbol i) (ld_unit i) (ld_weak i)) (b_nfa b) 0 OK R C TO (or_introl eq_refl))
          as (d' & fuel0 & RUN & OK' & R' & CT & P & AC').
        exists (with_nfa b d'), first, sym, fuel0. split; [intros fuel L; rewrite (RUN fuel L); reflexivity|].
        constructor; cbn [with_nfa b_nfa b_cur b_stack].
        * exists nc. destruct G; constructor; cbn; auto. lia.
        * exact R'.
        * lia.
        * intros w Y. apply P in Y; auto.
        * intros w x. rewrite (AC' _ _ _ C), other_words_app, AC. assert (E2 : (x = mkLA (ld_symbol i) (ld_unit i) (ld_weak i) /\ (exists u v, w = u ++ v /\ path (b_nfa b) 0 u 0%nat /\ tree_matches (ld_insensitive i) (ld_tree i) v)) <-> other_words [i] w x); [|tauto].
          split.
          -- intros (-> & u & v & -> & Y & M). apply Z in Y as ->. exists i. split; [left; reflexivity|]. auto.
          -- intros (j & [<-|[]] & _ & _ & M & ->). split; [reflexivity|]. exists [], w. split; [reflexivity|]. split; [constructor|exact M].
        * rewrite ignored_symbol_app, UI, SY. destruct (existsb unused_ignored defs) eqn:E; [reflexivity|]. apply ignored_symbol_none, E.
        * rewrite existsb_app. cbn [existsb]. rewrite UI, !Bool.orb_false_r. exact FI.
        * exists fo. split; [exact ST|]. destruct first; [exact X|]. destruct X as (IW & DE). split.
          -- intros w. rewrite ignored_words_app, IW. rewrite (P _ _ _ C LC).
             assert (E1 : at_final d' fo w <-> at_final (b_nfa b) fo w) by (destruct fo as [f|]; [apply P; [exact C|apply DE]|reflexivity]).
             rewrite E1. split; [|auto]. intros [Y|(j & [<-|[]] & N & _)]; [exact Y|congruence].
          -- destruct fo as [f|]; [|exact I]. destruct DE as (LF & D1 & D2 & D3 & D4). split; [lia|].
             split; [intros w Y; apply P in Y; auto|]. split; [intros w Y; apply P in Y; [exact (D2 _ Y)|exact LF|exact LC]|].
             split; [intros w Y; apply P in Y; [exact (D3 _ Y)|exact LF|exact C]|].
             intros w x Y. apply (AC' _ _ _ LF) in Y as [Y|(_ & u & v & _ & Y & _)]; [exact (D4 _ _ Y)|exact (D3 _ Y)].
  Qed.

  Lemma items_steps todo : forall b first sym defs, inv b first sym defs -> Forall (fun i => 0 <= ld_symbol i) defs -> Forall def_ok todo ->
    exists b' first' sym' fuel0, (forall fuel, (fuel0 <= fuel)%nat -> stage_items fuel (b, first, sym) (map def_item todo) = Some (b', first', sym')) /\ inv b' first' sym' (defs ++ todo).
  Proof.
    induction todo as [|i todo IH]; intros b first sym defs V PS F.
    - exists b, first, sym, O. split; [reflexivity|]. rewrite app_nil_r. exact V.
    - inversion F as [|? ? F1 F2]; subst. destruct (item_step b first sym defs i V PS F1) as (b1 & f1 & s1 & k1 & R1 & V1).
      destruct (IH b1 f1 s1 (defs ++ [i]) V1) as (b2 & f2 & s2 & k2 & R2 & V2).
      { apply Forall_app. split; [exact PS|]. constructor; [apply F1|constructor]. } { exact F2. }
      exists b2, f2, s2, (k1 + k2)%nat. rewrite <- app_assoc in V2. split; [|exact V2]. intros fuel L. cbn [map LexStageModel.stage_items]. rewrite R1 by lia. apply R2. lia.
  Qed.

  Lemma block_words_split defs w x : block_words used defs w x <->
    other_words defs w x \/ (x = mkLA (ignored_symbol used defs) unit_ignore false /\ ignored_words defs w).
  Proof.
    unfold block_words, other_words, ignored_words, def_action. split.
    - intros (i & J & NU & M & ->). destruct (unused_ignored i) eqn:UI; [right; split; [reflexivity|]|left]; exists i; auto 6.
    - intros [(i & J & NU & UI & M & ->)|(-> & i & J & UI & M)]; exists i; rewrite UI; auto 6.
      split; [exact J|]. split; [|auto]. unfold LexStageSpec.unused_ignored in UI. apply andb_prop in UI as (UI & _). apply Z.eqb_eq in UI. rewrite UI. discriminate.
  Qed.

  (** The automaton of the lexer stage *)
  Lemma stage_ndfa_lemma defs : Forall def_ok defs ->
    exists d fuel0, (forall fuel, (fuel0 <= fuel)%nat -> stage_ndfa expressions literals category defined used fuel (map def_item defs) = Some d) /\
      ndfa_ok d /\ (0 < count_states d)%nat /\ forall w x, accepts d 0 w x <-> block_words used defs w x.
  Proof.
    intros F. set (b0 := push (builder_at (A := language_action) ndfa_new false false 0)).
    assert (NP : forall w q, path (b_nfa b0) 0 w q -> w = [] /\ q = 0%nat).
    { intros w q P. apply path_gpath in P. inversion P; subst; auto; exfalso; match goal with E : edges _ _ _ _ |- _ => destruct E as (tr & X & _); destruct X end. }
    assert (V0 : inv b0 true (-1) []).
    { constructor.
      - exists false. constructor; cbn; auto; try lia. exact ndfa_new_ok.
      - intros q Q. destruct Q.
      - cbn. lia.
      - intros w P. apply NP in P. tauto.
      - intros w x. split; [intros (q & P & J)|intros (i & [] & _)]. unfold actions_for_state in J. destruct (Nat.leb (count_states (b_nfa b0)) q); destruct J.
      - reflexivity.
      - reflexivity.
      - exists None. split; [reflexivity|]. split; reflexivity. }
    destruct (items_steps defs b0 true (-1) [] V0 (Forall_nil _) F) as (b & first & sym & fuel0 & RUN & [(nc & G) R C Z AC SY FI (fo & ST & X)]).
    cbn [app] in *. pose proof (gb_ok _ _ _ G) as OK. pose proof (gb_cur _ _ _ G) as LC. destruct first.
    - exists (b_nfa b), fuel0. split; [intros fuel L; unfold stage_ndfa; fold b0; rewrite (RUN fuel L); reflexivity|]. split; [exact OK|]. split; [exact C|].
      intros w x. rewrite AC, block_words_split. split; [auto|]. intros [Y|(_ & i & J & U & _)]; [exact Y|]. symmetry in FI. apply Bool.negb_true_iff in FI.
      assert (existsb unused_ignored defs = true) by (apply existsb_exists; exists i; auto). congruence.
    - destruct X as (IW & DE). set (a := mkLA sym unit_ignore false).
      assert (FIN : forall d c, ndfa_ok d -> (c < count_states d)%nat -> (count_states (b_nfa b) <= count_states d)%nat ->
          (forall w x, accepts d 0 w x <-> other_words defs w x) -> (forall w, path d 0 w c <-> ignored_words defs w) ->
          ndfa_ok (accept d c a) /\ (0 < count_states (accept d c a))%nat /\ forall w x, accepts (accept d c a) 0 w x <-> block_words used defs w x).
      { intros d c OK' LC' CT AC' PC. split; [apply accept_ok, OK'|]. split; [change (count_states (accept d c a)) with (count_states d); lia|].
        intros w x. rewrite block_words_split, <- AC', <- PC. unfold accepts. split.
        - intros (q & Y & J). rewrite accept_path in Y. apply (actions_accept d c a q OK' LC') in J as [J|(-> & ->)]; [left; exists q; auto|]. right. split; [subst a; rewrite SY; reflexivity|exact Y].
        - intros [(q & Y & J)|(-> & Y)]; [exists q|exists c]; rewrite accept_path, (actions_accept d c a _ OK' LC'); (split; [assumption|]); [auto|]. right. split; [reflexivity|]. subst a. rewrite SY. reflexivity. }
      destruct fo as [f|].
      + destruct DE as (LF & D1 & D2 & D3 & D4). destruct (join_paths (b_nfa b) (b_cur b) f OK LC LF D2) as (OK' & CT & EA & P). set (d' := add_transition (b_nfa b) (b_cur b) [] f) in *.
        exists (accept d' f a), fuel0. split.
        { intros fuel L. unfold stage_ndfa. fold b0. rewrite (RUN fuel L). unfold pop. rewrite ST.
          rewrite (shift_to lower_case upper_case false nc eq_refl eq_refl b f (gb_lower _ _ _ G) (gb_upper _ _ _ G)). reflexivity. }
        apply FIN; [exact OK'|lia|lia| |].
        * intros w x. rewrite <- AC. unfold accepts.
          assert (AF : forall q, actions_for_state d' q = actions_for_state (b_nfa b) q) by (intros q; apply same_actions_in; [exact R|exact EA|exact OK|lia]). split.
          -- intros (q & Y & I). rewrite AF in I. apply P in Y as [Y|(u & v & _ & _ & Y)]; [exists q; auto|]. destruct (D4 v x). exists q. auto.
          -- intros (q & Y & I). exists q. rewrite AF, P. auto.
        * intros w. rewrite IW. cbn [at_final]. rewrite P. split; intros [Y|Y]; auto.
          -- destruct Y as (u & v & -> & Y1 & Y2). apply D1 in Y2 as ->. rewrite app_nil_r. auto.
          -- right. exists w, []. rewrite app_nil_r. split; [reflexivity|]. split; [exact Y|constructor].
      + exists (accept (b_nfa b) (b_cur b) a), fuel0. split.
        { intros fuel L. unfold stage_ndfa. fold b0. rewrite (RUN fuel L). rewrite (pop_none lower_case upper_case b _ _ ST). reflexivity. }
        apply FIN; [exact OK|exact LC|lia|exact AC|]. intros w. rewrite IW. cbn [at_final]. tauto.
  Qed.
End StageProofs.
