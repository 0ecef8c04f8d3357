(** The class dfa::lexer, over all histories. *)
From Verif Require Import Base OrdMap SymbolSetModel SymbolSetSpec SymbolMapModel SymbolMapSpec NdfaModel NdfaSpec NdfaProofs ToDfaProofs CompactProofs SymbolTableModel SymbolTableSpec
  StateMachineModel StateMachineSpec StateMachineProofs TextModel TextSpec LexerModel LexerSpec LexerProofs LexerDfaProofs RegexModel RegexSpec RegexGraph RegexBuildProofs RegexParseProofs RegexProofs
  RegexDefsProofs RegexTokenProofs LexPipeProofs LexClassModel LexClassSpec.
Local Open Scope Z_scope.

Lemma to_dfa_more {A} (eager : A -> bool) (d : ndfa A) init k k' r : (k <= k')%nat -> to_dfa eager k d init = Some r -> to_dfa eager k' d init = Some r.
Proof.
  assert (G : forall k k' w r, (k <= k')%nat -> dfa_loop eager k d w = Some r -> dfa_loop eager k' d w = Some r).
  { clear. induction k as [|k IH]; intros k' w r L E.
    - cbn [dfa_loop] in E. destruct k' as [|k']; [exact E|]. cbn [dfa_loop]. destruct (w_stack w); [exact E|discriminate].
    - destruct k' as [|k']; [lia|]. cbn [dfa_loop] in *. destruct (w_stack w); [exact E|]. destruct (existsb eager _); [apply IH; [lia|exact E]|].
      destruct (close_all d _); [apply IH; [lia|exact E]|discriminate]. }
  intros L. unfold to_dfa. destruct init; [auto|]. destruct (dfa_initials d _ _) as [w|]; [|discriminate]. destruct (dfa_loop eager k d w) as [w'|] eqn:E; [|discriminate].
  rewrite (G k k' w w' L E). auto.
Qed.

Lemma flat_rows_spec maxSet states rows : flat_rows maxSet states = Some rows ->
  length rows = length states /\ forall q row, nth_error rows q = Some row -> flat_fill maxSet (nth q states []) = Some row.
Proof.
  revert rows. induction states as [|st states IH]; intros rows; cbn [flat_rows].
  - intros E. injection E as <-. split; [reflexivity|]. intros [|q] row; discriminate.
  - destruct (flat_fill maxSet st) as [r0|] eqn:E0; [|discriminate]. destruct (flat_rows maxSet states) as [rs|]; [|discriminate]. intros E. injection E as <-.
    destruct (IH rs eq_refl) as (L & X). split; [cbn [length]; lia|]. intros [|q] row; cbn [nth_error nth]; [intros E; injection E as <-; exact E0|apply X].
Qed.

Lemma flat_rows_exist {A} (d : ndfa A) rows : flat_machine d rows -> flat_rows (sm_count (n_symbols d)) (n_states d) = Some rows.
Proof.
  unfold flat_machine, count_states, get_state. generalize (n_states d). intros sts. revert rows. induction sts as [|st sts IH]; intros rows (L & F).
  - destruct rows; [reflexivity|discriminate].
  - destruct rows as [|row rows]; [discriminate|]. cbn [flat_rows]. pose proof (F 0%nat row eq_refl) as F0. cbn [nth] in F0. rewrite F0. rewrite (IH rows); [reflexivity|]. split; [cbn in L; lia|].
    intros q r E. exact (F (S q) r E).
Qed.

Lemma in_force_snoc qs q : in_force (qs ++ [q]) = if fixed qs then in_force qs else in_force qs ++ in_force [q].
Proof.
  unfold fixed. induction qs as [|[r s|c|t|] qs IH]; cbn [app in_force existsb fixes orb]; try reflexivity; [|exact IH].
  rewrite IH. destruct (existsb fixes qs); reflexivity.
Qed.
Lemma in_force_app qs qs' : exists more, in_force (qs ++ qs') = in_force qs ++ more.
Proof.
  induction qs as [|[r s|c|t|] qs IH]; cbn [app in_force]; [eexists; reflexivity| | | |exact IH]; try (exists []; reflexivity).
  destruct IH as (m & ->). exists m. reflexivity.
Qed.

Section Class.
  Context (expressions literals : list Z -> option (list Z)) (category : list Z -> option symbol_set)
    (defined : list Z -> list (bool * bool * token)) (sort : list transition -> list transition).
  Hypothesis SORT : forall st, compact_fill st (sort st).
  Notation add_tokens := (add_tokens expressions literals category defined).
  Notation proper := (proper expressions literals category defined).
  Notation usable := (usable expressions literals category defined).
  Notation calls_of := (calls_of expressions literals category defined sort).
  Notation do_call := (do_call expressions literals category defined sort).
  Definition tokens (rules : list (re * Z)) : list (bool * token * Z) := map (fun p => (false, Regex (text (fst p)), snd p)) rules.
  Definition rule_ok (p : re * Z) : Prop := tree_ok expressions literals category defined true false (TRegex (fst p)) /\ 0 <= snd p.

  Lemma add_token_more k k' (d : ndfa Z) surr nocase init t a r : (k <= k')%nat ->
    add_token expressions literals category defined k d surr nocase init t a = Some r -> add_token expressions literals category defined k' d surr nocase init t a = Some r.
  Proof.
    intros L. destruct t as [re|w]; cbn [add_token]; [|auto]. unfold add_regex. destruct (Nat.leb (count_states d) init); [auto|].
    destruct (run _ _ _ _ _ _ k re _) as [b2|] eqn:E; [|discriminate]. intros X. rewrite (run_more _ _ _ _ _ _ _ _ _ _ _ L E). exact X.
  Qed.
  Lemma add_tokens_more k k' surr ts : forall (d : ndfa Z) r, (k <= k')%nat -> add_tokens k d surr ts = Some r -> add_tokens k' d surr ts = Some r.
  Proof.
    induction ts as [|[[nc t] a] ts IH]; intros d r L; cbn [RegexModel.add_tokens]; [auto|].
    destruct (add_token _ _ _ _ k d surr nc 0 t a) as [d'|] eqn:E; [|discriminate]. rewrite (add_token_more _ _ _ _ _ _ _ _ _ L E). apply IH, L.
  Qed.
  Lemma add_tokens_snoc k surr ts nc t a : forall (d : ndfa Z), add_tokens k d surr (ts ++ [(nc, t, a)]) =
    match add_tokens k d surr ts with None => None | Some d => add_token expressions literals category defined k d surr nc 0 t a end.
  Proof.
    induction ts as [|[[nc' t'] a'] ts IH]; intros d; cbn [app RegexModel.add_tokens].
    - destruct (add_token _ _ _ _ _ _ _ _ _ _ _); reflexivity.
    - destruct (add_token _ _ _ _ k d surr nc' 0 t' a'); [apply IH|reflexivity].
  Qed.

  (** The automaton of the expressions *)
  Lemma rules_exist rules : Forall rule_ok rules -> exists d fuel0, (forall fuel, (fuel0 <= fuel)%nat -> add_tokens fuel ndfa_new true (tokens rules) = Some d) /\
    ndfa_ok d /\ forall w s, accepts d 0 w s <-> word rules w s.
  Proof.
    intros F. destruct (lexer_tokens_lemma (A := Z) expressions literals category defined true (map (fun p => (false, TRegex (fst p), snd p)) rules)) as (d & k & E & OK & AC).
    { apply Forall_map. revert F. apply Forall_impl. intros p (X & _). exact X. }
    exists d, k. split; [|split; [exact OK|]].
    - intros fuel L. rewrite <- (E fuel L). unfold tokens. rewrite map_map. reflexivity.
    - intros w s. rewrite AC. split.
      + intros (nc & t & I & M). apply in_map_iff in I as ([r s'] & X & I). injection X as <- <- <-. exists r. split; [exact I|exact M].
      + intros (r & I & M). exists false, (TRegex r). split; [|exact M]. apply in_map_iff. exists (r, s). auto.
  Qed.

  Lemma rules_states rules : Forall rule_ok rules -> forall d : ndfa Z, ndfa_ok d -> accept_in_range d -> (0 < count_states d)%nat ->
    exists d' fuel0, (forall fuel, (fuel0 <= fuel)%nat -> add_tokens fuel d true (tokens rules) = Some d') /\ (0 < count_states d')%nat.
  Proof.
    induction rules as [|[r a] rules IH]; intros F d OK R L0.
    - exists d, O. split; [reflexivity|exact L0].
    - apply Forall_cons_iff in F as [(TO & _) F]. cbn [fst snd] in TO.
      destruct (token_lemma expressions literals category defined true false (TRegex r) a d 0%nat OK R L0 TO (or_introl eq_refl)) as (d1 & k1 & E1 & OK1 & R1 & LC & _).
      destruct (IH F d1 OK1 R1 ltac:(lia)) as (d2 & k2 & E2 & C2). exists d2, (k1 + k2)%nat. split; [|exact C2]. intros fuel L. cbn [tokens map RegexModel.add_tokens fst snd].
      cbn [tree_text] in E1. rewrite (E1 fuel ltac:(lia)). apply E2. lia.
  Qed.

  Lemma rules_words fuel rules d : Forall rule_ok rules -> add_tokens fuel ndfa_new true (tokens rules) = Some d ->
    ndfa_ok d /\ (0 < count_states d)%nat /\ forall w s, accepts d 0 w s <-> word rules w s.
  Proof.
    intros F E. destruct (rules_exist rules F) as (d' & k & R & X). destruct (rules_states rules F ndfa_new ndfa_new_ok) as (d2 & k2 & R2 & X2); [intros q []|cbn; lia|].
    pose proof (add_tokens_more fuel (fuel + k + k2) true (tokens rules) ndfa_new d ltac:(lia) E) as Y.
    assert (d = d') by (rewrite (R (fuel + k + k2)%nat ltac:(lia)) in Y; congruence). assert (d = d2) by (rewrite (R2 (fuel + k + k2)%nat ltac:(lia)) in Y; congruence).
    subst d' d2. destruct X. auto.
  Qed.

  (** A compiled lexer that does what the expressions say *)
  Definition follows (rules : list (re * Z)) (c : compiled) : Prop := forall input, (forall x, In x input -> 0 <= x < 65536) ->
    exists ls st, read_all (cp_step c) (accept_at (cp_accept c)) 0 (S (length input)) (fun _ => None) (stream_new 0 input) [] = Some (ls, st) /\ cut_into rules input ls.

  Lemma first_lexeme_munch rules (L : list Z -> Z -> Prop) input p a : (forall w x, L w x <-> word rules w x) -> munch action_less (fun s => s) L input p a -> first_lexeme rules input p a.
  Proof.
    intros E (R & X). split; [exact R|]. destruct X as [(NE & (b & B & <- & M) & X)|(X1 & X2 & X3)]; [left|right].
    - split; [exact NE|]. split; [apply E, B|]. split.
      + intros s' W. apply E in W. specialize (M s' W). unfold action_less in M. apply Z.ltb_ge in M. exact M.
      + intros p' rest' b' T N B'. apply (X p' rest' b' T N). apply E, B'.
    - split; [exact X1|]. split; [exact X2|]. intros p' rest' b' T N B'. apply (X3 p' rest' b' T N). apply E, B'.
  Qed.

  Lemma dfa_machine compact (r : ndfa Z) c : dfa_lexer sort compact r = Some c -> machine_of Kwchar r (cp_step c) /\ cp_accept c = accept_table action_less (fun s => s) r.
  Proof.
    unfold dfa_lexer. destruct compact.
    - intros E. injection E as <-. cbn [cp_step cp_accept]. split; [|reflexivity]. right. exists (map sort (n_states r)). split; [|reflexivity]. split; [apply map_length|].
      intros q row X. rewrite nth_error_map in X. destruct (nth_error (n_states r) q) as [st|] eqn:Eq; [|discriminate]. injection X as <-. unfold get_state. rewrite (nth_error_nth _ _ _ Eq). apply SORT.
    - destruct (flat_rows _ _) as [rows|] eqn:E; [|discriminate]. intros X. injection X as <-. cbn [cp_step cp_accept]. split; [|reflexivity]. left. exists rows. split; [|reflexivity].
      apply flat_rows_spec in E. exact E.
  Qed.
  Lemma dfa_lexer_exists compact (r : ndfa Z) : ndfa_ok r -> exists c, dfa_lexer sort compact r = Some c.
  Proof.
    intros OK. unfold dfa_lexer. destruct compact; [eexists; reflexivity|]. destruct (flat_machine_exists r OK) as (rows & M). rewrite (flat_rows_exist r rows M). eexists; reflexivity.
  Qed.

  Lemma dfa_follows compact rules (r : ndfa Z) c : Forall rule_ok rules -> ndfa_ok r -> disjoint_symbols r -> deterministic r -> (0 < count_states r)%nat ->
    no_block_after_range (n_symbols r) -> (forall w s, accepts r 0 w s <-> word rules w s) -> dfa_lexer sort compact r = Some c -> follows rules c.
  Proof.
    intros F OK DJ DT C NB W E input IN. destruct (dfa_machine compact r c E) as (MA & ->).
    assert (V0 : valid_state r 0) by (unfold valid_state; lia).
    destruct (C16_dfa_lemma action_less (fun s => s) r Kwchar (cp_step c) input 0 0 (fun _ => None) (S (length input)) OK DJ DT base_order MA NB ltac:(discriminate) IN V0 V0) as (ls & st & R1 & R2 & R3).
    - discriminate.
    - intros seen w a X. assert (W' : word rules w a). { apply W. unfold start_state, default_state in X. destruct seen as [|l seen]; [exact X|]. destruct (is_break_b _); exact X. }
      destruct W' as (re & I & _). rewrite Forall_forall in F. apply (F _ I).
    - lia.
    - exists ls, st. split; [exact R1|]. split; [exact R2|]. intros ls1 l ls2 El. destruct (R3 ls1 l ls2 El) as (_ & MU). eapply first_lexeme_munch; [|exact MU].
      intros w x. cbv beta. rewrite <- W. unfold start_state, default_state. destruct (rev ls1) as [|l' seen]; [reflexivity|]. destruct (is_break_b _); reflexivity.
  Qed.

  (** The two stages between the expressions and the tables *)
  Lemma stages fuel rules d : Forall rule_ok rules -> usable fuel rules -> add_tokens fuel ndfa_new true (tokens rules) = Some d ->
    exists u, to_ndfa_with_unique_symbols d = Some u /\ verify_no_symbol_overlap u = true /\ (exists k r, to_dfa (fun _ => false) k u [0%nat] = Some r) /\
      forall dfuel r, to_dfa (fun _ => false) dfuel u [0%nat] = Some r -> verify_no_symbol_overlap r = true /\ verify_is_dfa r = true /\ ndfa_ok r /\
        forall compact c, dfa_lexer sort compact r = Some c -> follows rules c.
  Proof.
    intros F US E. destruct (US d E) as (AC & NB). destruct (rules_words fuel rules d F E) as (OK & C & W).
    destruct (unique_lemma d OK AC) as (u & EU & OKU & DJ & VU & CU & AU & PU). exists u. split; [exact EU|]. split; [exact VU|].
    assert (IN : forall q, In q [0%nat] -> (q < count_states u)%nat) by (intros q [<-|[]]; lia).
    split; [exact (to_dfa_terminates (fun _ => false) u [0%nat] OKU IN)|]. intros dfuel r ED.
    destruct (to_dfa_correct (fun _ => false) u [0%nat] dfuel r OKU DJ IN ED) as (OKD & VD & DT & SY & CD & AD).
    assert (VO : verify_no_symbol_overlap r = true) by (unfold verify_no_symbol_overlap in *; rewrite SY; exact VU). split; [exact VO|]. split; [exact VD|]. split; [exact OKD|].
    intros compact c. cbn [length] in CD. apply dfa_follows; auto.
    - intros i j x; rewrite SY; apply DJ.
    - rewrite SY. apply NB, EU.
    - intros w x. rewrite (AD 0%nat 0%nat eq_refl), <- W. split.
      + intros ((q & P & A) & _). exists q. rewrite <- AU. split; [apply PU, P|exact A].
      + intros (q & P & A). split; [|apply not_cut_never]. exists q. rewrite AU. split; [apply PU, P|exact A].
  Qed.

  (** ** Histories *)
  Definition holds (fuel : nat) (before : list request) (l : lexer) : Prop :=
    if fixed before then exists c, l = mkLexer None (Some c) /\ follows (in_force before) c
    else exists d, l = mkLexer (Some d) None /\ add_tokens fuel ndfa_new true (tokens (in_force before)) = Some d.

  Lemma fixed_snoc before q : fixed (before ++ [q]) = fixed before || fixes q.
  Proof. unfold fixed. rewrite existsb_app. cbn [existsb]. rewrite Bool.orb_false_r. reflexivity. Qed.

  Lemma compile_fixed fuel before l dfuel compact l' q : fixes q = true -> Forall rule_ok (in_force before) -> usable fuel (in_force before) -> holds fuel before l ->
    compile sort dfuel l compact = Some l' -> holds fuel (before ++ [q]) l' /\ exists c, l' = mkLexer None (Some c) /\ follows (in_force before) c.
  Proof.
    intros Q F US. unfold holds. rewrite fixed_snoc, Q, Bool.orb_true_r, in_force_snoc. destruct (fixed before).
    - intros (c & -> & FO) X. cbn in X. injection X as <-. split; exists c; auto.
    - intros (d & -> & E) X. unfold compile in X. cbn [lo_lexer lo_ndfa] in X. destruct (stages fuel _ d F US E) as (u & EU & _ & _ & ST). rewrite EU in X.
      destruct (to_dfa _ dfuel u [0%nat]) as [r|] eqn:ED; [|discriminate]. destruct (dfa_lexer sort compact r) as [c|] eqn:EC; [|discriminate]. injection X as <-.
      destruct (ST dfuel r ED) as (_ & _ & _ & FO). specialize (FO compact c EC).
      assert (N : in_force [q] = []) by (destruct q; try discriminate; reflexivity). rewrite N, app_nil_r. split; exists c; auto.
  Qed.

  Lemma call_lemma fuel dfuel before l q l' a : proper q -> Forall rule_ok (in_force (before ++ [q])) -> Forall rule_ok (in_force before) -> usable fuel (in_force before) ->
    holds fuel before l -> do_call fuel dfuel l (asked q) = Some (l', a) -> holds fuel (before ++ [q]) l' /\ told before q a.
  Proof.
    intros P F1 F US H. destruct q as [r s|compact|input|]; cbn [asked LexClassModel.do_call told].
    - unfold add_symbol, holds in *. rewrite fixed_snoc, in_force_snoc, Bool.orb_false_r. destruct (fixed before).
      + destruct H as (c & -> & FO). cbn [lo_ndfa]. intros X. injection X as <- <-. split; [|exact Logic.I]. exists c. auto.
      + destruct H as (d & -> & E). cbn [lo_ndfa lo_lexer]. destruct (add_token _ _ _ _ fuel d true false 0 _ s) as [d'|] eqn:E'; [|discriminate]. intros X. injection X as <- <-. split; [|exact Logic.I].
        exists d'. split; [reflexivity|]. unfold tokens. rewrite map_app. cbn [in_force map fst snd]. rewrite add_tokens_snoc. unfold tokens in E. rewrite E. exact E'.
    - destruct (compile sort dfuel l compact) as [l1|] eqn:E; [|discriminate]. intros X. injection X as <- <-. split; [|exact Logic.I].
      exact (proj1 (compile_fixed fuel before l dfuel compact l1 (Make compact) eq_refl F US H E)).
    - unfold create_stream. set (m := match lo_lexer l with Some _ => Some l | None => compile sort dfuel l false end).
      assert (EM : forall l1, m = Some l1 -> holds fuel (before ++ [Read input]) l1 /\ exists c, l1 = mkLexer None (Some c) /\ follows (in_force before) c).
      { intros l1 E. apply (compile_fixed fuel before l dfuel false l1 (Read input) eq_refl F US H). subst m. unfold compile. destruct (lo_lexer l) as [c|] eqn:EL; [exact E|]. unfold compile in E. rewrite EL in E. exact E. }
      destruct m as [l1|]; [|discriminate]. destruct (EM l1 eq_refl) as (H1 & c & -> & FO). cbn [lo_lexer]. destruct (FO input P) as (ls & st & R & CU). rewrite R. intros X. injection X as <- <-. auto.
    - unfold verify, holds in *. rewrite fixed_snoc, in_force_snoc, Bool.orb_false_r. cbn [in_force]. rewrite app_nil_r. destruct (fixed before).
      + destruct H as (c & -> & FO). cbn [lo_lexer]. intros X. injection X as <- <-. split; [exists c; auto|reflexivity].
      + destruct H as (d & -> & E). cbn [lo_lexer lo_ndfa]. destruct (stages fuel _ d F US E) as (u & EU & VU & _ & ST). rewrite EU.
        destruct (to_dfa _ dfuel u [0%nat]) as [r|] eqn:ED; [|discriminate]. destruct (ST dfuel r ED) as (VO & VD & _). rewrite VU, VO, VD. intros X. injection X as <- <-.
        split; [exists d; auto|reflexivity].
  Qed.

  Lemma history_lemma fuel dfuel rest : forall before l answers, Forall proper rest -> Forall rule_ok (in_force (before ++ rest)) ->
    (forall n, usable fuel (firstn n (in_force (before ++ rest)))) -> holds fuel before l -> calls_of fuel dfuel l (map asked rest) = Some answers ->
    length answers = length rest /\ forall mid q mid' as1 a as2, rest = mid ++ q :: mid' -> answers = as1 ++ a :: as2 -> length as1 = length mid -> told (before ++ mid) q a.
  Proof.
    induction rest as [|q rest IH]; intros before l answers P F US H; cbn [map LexClassModel.calls_of].
    - intros X. injection X as <-. split; [reflexivity|]. intros [|] ? ? ? ? ?; discriminate.
    - destruct (do_call fuel dfuel l (asked q)) as [[l' a]|] eqn:E; [|discriminate]. destruct (calls_of fuel dfuel l' (map asked rest)) as [answers'|] eqn:E'; [|discriminate].
      intros X. injection X as <-. apply Forall_cons_iff in P as [PQ P]. change (q :: rest) with ([q] ++ rest) in F, US. rewrite app_assoc in F. assert (US' : forall n, usable fuel (firstn n (in_force ((before ++ [q]) ++ rest)))) by (intros n; rewrite <- app_assoc; apply US).
      destruct (in_force_app (before ++ [q]) rest) as (m1 & M1). pose proof F as F1. rewrite M1 in F1. apply Forall_app in F1 as [F1 _].
      destruct (in_force_app before [q]) as (m2 & M2). pose proof F1 as F2. rewrite M2 in F2. apply Forall_app in F2 as [F2 _].
      assert (U2 : usable fuel (in_force before)). { specialize (US' (length (in_force before))). rewrite M1, M2, <- app_assoc, firstn_app, Nat.sub_diag, firstn_all in US'. cbn [firstn] in US'. rewrite app_nil_r in US'. exact US'. }
      destruct (call_lemma fuel dfuel before l q l' a PQ F1 F2 U2 H E) as (H' & T). destruct (IH (before ++ [q]) l' answers' P F US' H' E') as (LN & X).
      split; [cbn [length]; lia|]. intros mid q' mid' as1 a' as2 ER EA EL. destruct mid as [|q0 mid].
      + destruct as1; [|discriminate]. injection ER as <- <-. injection EA as <- <-. rewrite app_nil_r. exact T.
      + destruct as1 as [|a0 as1]; [discriminate|]. injection ER as <- ->. injection EA as <- ->. specialize (X mid q' mid' as1 a' as2 eq_refl eq_refl ltac:(cbn in EL; lia)). rewrite <- app_assoc in X. exact X.
  Qed.

  Lemma rules_of_proper qs : Forall proper qs -> Forall rule_ok (in_force qs).
  Proof.
    induction 1 as [|[r s|c|t|] qs P _ IH]; cbn [in_force]; [constructor|constructor; [exact P|exact IH]|constructor|constructor|exact IH].
  Qed.

  (** ** Every history is answered *)
  Lemma add_tokens_prefix k surr ts ts' : forall (d r : ndfa Z), add_tokens k d surr (ts ++ ts') = Some r -> exists d', add_tokens k d surr ts = Some d'.
  Proof.
    induction ts as [|[[nc t] a] ts IH]; intros d r; cbn [app RegexModel.add_tokens]; [eauto|].
    destruct (add_token _ _ _ _ k d surr nc 0 t a) as [d1|]; [apply IH|discriminate].
  Qed.

  Lemma compile_runs fuel before l compact : Forall rule_ok (in_force before) -> usable fuel (in_force before) -> holds fuel before l ->
    exists k l', forall dfuel, (k <= dfuel)%nat -> compile sort dfuel l compact = Some l'.
  Proof.
    intros F US. unfold holds. destruct (fixed before).
    - intros (c & -> & _). exists O. eexists. intros dfuel _. reflexivity.
    - intros (d & -> & E). destruct (stages fuel _ d F US E) as (u & EU & _ & (k & r & ED) & ST). destruct (ST k r ED) as (_ & _ & OK & _).
      destruct (dfa_lexer_exists compact r OK) as (c & EC). exists k, (mkLexer None (Some c)). intros dfuel L. unfold compile. cbn [lo_lexer lo_ndfa]. rewrite EU, (to_dfa_more _ _ _ _ _ _ L ED), EC. reflexivity.
  Qed.

  Lemma call_runs fuel before l q d : proper q -> Forall rule_ok (in_force before) -> usable fuel (in_force before) ->
    add_tokens fuel ndfa_new true (tokens (in_force (before ++ [q]))) = Some d -> holds fuel before l ->
    exists k l' a, forall dfuel, (k <= dfuel)%nat -> do_call fuel dfuel l (asked q) = Some (l', a).
  Proof.
    intros P F US ADD H. destruct q as [r s|compact|input|]; cbn [asked LexClassModel.do_call].
    - exists O. unfold add_symbol, holds in *. rewrite in_force_snoc in ADD. destruct (fixed before).
      + destruct H as (c & -> & _). cbn [lo_ndfa]. do 2 eexists. intros dfuel _. reflexivity.
      + destruct H as (d0 & -> & E). cbn [lo_ndfa lo_lexer]. unfold tokens in ADD, E. rewrite map_app in ADD. cbn [in_force map fst snd] in ADD. rewrite add_tokens_snoc, E in ADD. rewrite ADD.
        do 2 eexists. intros dfuel _. reflexivity.
    - destruct (compile_runs fuel before l compact F US H) as (k & l' & X). exists k, l', Done. intros dfuel L. rewrite (X dfuel L). reflexivity.
    - destruct (compile_runs fuel before l false F US H) as (k & l' & X).
      destruct (proj2 (compile_fixed fuel before l k false l' (Read input) eq_refl F US H (X k (le_n k)))) as (c & -> & FO). destruct (FO input P) as (ls & st & R & _).
      exists k, (mkLexer None (Some c)), (Lexemes ls). intros dfuel L. unfold create_stream. specialize (X dfuel L).
      assert (Y : match lo_lexer l with Some _ => Some l | None => compile sort dfuel l false end = Some (mkLexer None (Some c))).
      { unfold compile in X |- *. destruct (lo_lexer l); exact X. }
      rewrite Y. cbn [lo_lexer]. rewrite R. reflexivity.
    - unfold verify, holds in *. destruct (fixed before).
      + destruct H as (c & -> & _). exists O. do 2 eexists. intros dfuel _. reflexivity.
      + destruct H as (d0 & -> & E). destruct (stages fuel _ d0 F US E) as (u & EU & _ & (k & r & ED) & _). exists k. do 2 eexists. intros dfuel L. cbn [lo_lexer lo_ndfa].
        rewrite EU, (to_dfa_more _ _ _ _ _ _ L ED). reflexivity.
  Qed.

  Lemma history_runs fuel rest : forall before l d, Forall proper rest -> Forall rule_ok (in_force (before ++ rest)) ->
    (forall n, usable fuel (firstn n (in_force (before ++ rest)))) -> add_tokens fuel ndfa_new true (tokens (in_force (before ++ rest))) = Some d -> holds fuel before l ->
    exists k answers, forall dfuel, (k <= dfuel)%nat -> calls_of fuel dfuel l (map asked rest) = Some answers.
  Proof.
    induction rest as [|q rest IH]; intros before l d P F US ADD H; cbn [map LexClassModel.calls_of].
    - exists O, []. reflexivity.
    - apply Forall_cons_iff in P as [PQ P]. change (q :: rest) with ([q] ++ rest) in F, US, ADD. rewrite app_assoc in F, ADD.
      assert (US' : forall n, usable fuel (firstn n (in_force ((before ++ [q]) ++ rest)))) by (intros n; rewrite <- app_assoc; apply US).
      destruct (in_force_app (before ++ [q]) rest) as (m1 & M1). pose proof F as F1. rewrite M1 in F1. apply Forall_app in F1 as [F1 _].
      destruct (in_force_app before [q]) as (m2 & M2). pose proof F1 as F2. rewrite M2 in F2. apply Forall_app in F2 as [F2 _].
      assert (U2 : usable fuel (in_force before)). { specialize (US' (length (in_force before))). rewrite M1, M2, <- app_assoc, firstn_app, Nat.sub_diag, firstn_all in US'. cbn [firstn] in US'. rewrite app_nil_r in US'. exact US'. }
      assert (A1 : exists d1, add_tokens fuel ndfa_new true (tokens (in_force (before ++ [q]))) = Some d1).
      { rewrite M1 in ADD. unfold tokens in ADD. rewrite map_app in ADD. exact (add_tokens_prefix _ _ _ _ _ _ ADD). }
      destruct A1 as (d1 & A1). destruct (call_runs fuel before l q d1 PQ F2 U2 A1 H) as (k & l' & a & E).
      destruct (call_lemma fuel k before l q l' a PQ F1 F2 U2 H (E k (le_n k))) as (H' & _).
      destruct (IH (before ++ [q]) l' d P F US' ADD H') as (k' & answers & E'). exists (k + k')%nat, (a :: answers). intros dfuel L.
      rewrite (E dfuel ltac:(lia)), (E' dfuel ltac:(lia)). reflexivity.
  Qed.

  Lemma new_holds fuel : holds fuel [] (lexer_new).
  Proof. exists ndfa_new. split; reflexivity. Qed.
End Class.

(** ** The character lexer *)
Lemma char_lexemes_spec input : forall t, ~ In end_of_input input ->
  map lx_content (char_lexemes t input) = map (fun c => [c]) input /\ map lx_matched (char_lexemes t input) = input /\
  forall ls1 l ls2, char_lexemes t input = ls1 ++ l :: ls2 -> lx_pos l = fst (update_position t (contents ls1)).
Proof.
  induction input as [|c input IH]; intros t N; [split; [reflexivity|]; split; [reflexivity|]; intros [|]; discriminate|].
  cbn [char_lexemes next_char]. destruct (Z.eqb_spec c end_of_input) as [->|NE]; [destruct N; left; reflexivity|].
  destruct (IH (update_symbol t c)) as (I1 & I2 & I3); [intros X; apply N; right; exact X|]. cbn [map lx_content lx_matched]. rewrite I1, I2. split; [reflexivity|]. split; [reflexivity|].
  intros [|l0 ls1] l ls2 E; [injection E as <- _; reflexivity|]. injection E as <- E. rewrite (I3 ls1 l ls2 E). reflexivity.
Qed.

(** ** Lexers made from an automaton *)
Definition given_answer (d : ndfa Z) (c : call) (a : answer) : Prop :=
  match c, a with
  | AddSymbol _ _, Done | Compile _, Done => True
  | Stream input, Lexemes ls => contents ls = input /\ forall ls1 l ls2, ls = ls1 ++ l :: ls2 -> munch action_less (fun s => s) (accepts d 0) (contents (l :: ls2)) (lx_content l) (lx_matched l)
  | Verify, Verified ok => ok = false
  | _, _ => False
  end.

Lemma given_lemma expressions literals category defined sort fuel dfuel (d : ndfa Z) : ndfa_ok d -> disjoint_symbols d -> deterministic d -> (0 < count_states d)%nat ->
  no_block_after_range (n_symbols d) -> (forall w s, accepts d 0 w s -> 0 <= s) ->
  exists l, lexer_of_dfa sort d = Some l /\ forall cs, Forall (fun c => match c with Stream input => forall x, In x input -> 0 <= x < 65536 | _ => True end) cs ->
    exists answers, calls_of expressions literals category defined sort fuel dfuel l cs = Some answers /\ Forall2 (given_answer d) cs answers.
Proof.
  intros OK DJ DT C NB SY. destruct (flat_machine_exists d OK) as (rows & M). pose proof (flat_rows_exist d rows M) as ER.
  set (c := mkCompiled (flat_run Kwchar d rows) (accept_table action_less (fun s => s) d)).
  exists (mkLexer None (Some c)). split; [unfold lexer_of_dfa, dfa_lexer; rewrite ER; reflexivity|].
  induction 1 as [|q cs P _ (answers & E & X)]; [exists []; split; [reflexivity|constructor]|].
  assert (G : exists a, do_call expressions literals category defined sort fuel dfuel (mkLexer None (Some c)) q = Some (mkLexer None (Some c), a) /\ given_answer d q a).
  { destruct q as [r s|compact|input|]; [exists Done; split; [reflexivity|exact Logic.I]|exists Done; split; [reflexivity|exact Logic.I]| |exists (Verified false); split; reflexivity].
    assert (V0 : valid_state d 0) by (unfold valid_state; lia).
    assert (MA : machine_of Kwchar d (cp_step c)) by (left; exists rows; split; [exact M|reflexivity]).
    destruct (C16_dfa_lemma action_less (fun s => s) d Kwchar (cp_step c) input 0 0 (fun _ => None) (S (length input)) OK DJ DT base_order MA NB ltac:(discriminate) P V0 V0) as (ls & st & R1 & R2 & R3).
    - discriminate.
    - intros seen w a Y. apply (SY w a). unfold start_state, default_state in Y. destruct seen as [|l seen]; [exact Y|]. destruct (is_break_b _); exact Y.
    - lia.
    - exists (Lexemes ls). cbn [do_call]. unfold create_stream. cbn [lo_lexer]. change (accept_at (cp_accept c)) with (accept_at (accept_table action_less (fun s => s) d)). rewrite R1.
      split; [reflexivity|]. split; [exact R2|]. intros ls1 l ls2 El. destruct (R3 ls1 l ls2 El) as (_ & MU). unfold start_state, default_state in MU.
      destruct (rev ls1) as [|l' seen]; [exact MU|]. destruct (is_break_b _); exact MU. }
  destruct G as (a & EC & G). exists (a :: answers). split; [cbn [calls_of]; rewrite EC, E; reflexivity|]. constructor; assumption.
Qed.
