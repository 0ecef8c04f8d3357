(** From the definitions of a language block with weak symbols to lexemes. *)
From Verif Require Import Base OrdMap SymbolSetModel SymbolSetSpec SymbolSetProofs SymbolMapModel SymbolMapSpec SymbolMapProofs
  NdfaModel NdfaSpec NdfaProofs ToDfaProofs NdfaReduceModel NdfaReduceSpec SymbolTableModel SymbolTableSpec CompactProofs MergeProofs ReachProofs StateMachineModel StateMachineSpec StateMachineProofs
  TextModel TextSpec LexerModel LexerSpec LexerProofs LexerDfaProofs RegexModel RegexSpec RegexGraph RegexBuildProofs RegexParseProofs RegexProofs RegexDefsProofs RegexTokenProofs
  LexStageModel LexStageSpec LexStageProofs LexPipeProofs TermDictModel TermDictSpec TermDictProofs WeakLexModel WeakLexSpec WeakLexProofs.
Local Open Scope Z_scope.

(** ** Automata that differ in their actions *)
Section Same.
  Context {A B : Type} (d : ndfa A) (e : ndfa B).
  Hypothesis (ST : n_states e = n_states d) (SY : n_symbols e = n_symbols d).

  Lemma same_state q : get_state e q = get_state d q.
  Proof. unfold get_state. rewrite ST. reflexivity. Qed.
  Lemma same_count : count_states e = count_states d.
  Proof. unfold count_states. rewrite ST. reflexivity. Qed.
  Lemma same_path_to q w q' : path d q w q' -> path e q w q'.
  Proof.
    intros P. induction P as [q|q id r w q' H1 H2 P IH|q id r x w q' H1 H2 P IH]; [apply path_nil|eapply path_eps|eapply path_sym].
    - rewrite same_state. exact H1.
    - rewrite SY. exact H2.
    - exact IH.
    - rewrite same_state. exact H1.
    - rewrite SY. exact H2.
    - exact IH.
  Qed.
  Lemma same_ok : ndfa_ok d -> msorted Nat.ltb (n_accept e) -> ndfa_ok e.
  Proof.
    intros [O1 O2 O3 O4] S. constructor; [rewrite SY; exact O1| | |exact S]; intros q.
    - intros id r. rewrite same_state, SY, same_count. apply O2.
    - rewrite same_state. apply O3.
  Qed.
  Lemma same_disjoint : disjoint_symbols d -> disjoint_symbols e.
  Proof. unfold disjoint_symbols. rewrite SY. auto. Qed.
  Lemma same_deterministic : deterministic d -> deterministic e.
  Proof.
    intros [D1 D2]. split.
    - intros q id r. rewrite same_state, SY. apply D1.
    - intros q x id1 r1 id2 r2. rewrite same_state, SY. apply D2.
  Qed.
  Lemma same_verify : verify_is_dfa e = verify_is_dfa d.
  Proof. destruct d as [s y a], e as [s' y' a']. cbn [n_states n_symbols] in ST, SY. subst s' y'. reflexivity. Qed.
End Same.

(** ** Compaction and merging keep the words of any automaton *)
Lemma reduce_lemma {A} (d : ndfa A) compact merge fuel r : ndfa_ok d -> disjoint_symbols d -> verify_is_dfa d = true -> (0 < count_states d)%nat ->
  (forall q, (q < count_states d)%nat -> exists w, path d 0 w q) ->
  (compact = true -> exists f, first_accepting d [0%nat] f /\ forall p, (p < count_states d)%nat -> p <> 0%nat -> ~ accepting d p -> told_apart d [0%nat] f p) ->
  stage_reduce compact merge fuel d = Some r ->
  ndfa_ok r /\ disjoint_symbols r /\ verify_is_dfa r = true /\ (0 < count_states r)%nat /\ forall w x, accepts r 0 w x <-> accepts d 0 w x.
Proof.
  intros OK DJ VD C RE CO ER.
  assert (S1 : exists d1, (if merge then to_ndfa_with_merged_symbols d1 else Some d1) = Some r /\
    ndfa_ok d1 /\ disjoint_symbols d1 /\ verify_is_dfa d1 = true /\ (0 < count_states d1)%nat /\ forall w x, accepts d1 0 w x <-> accepts d 0 w x).
  { unfold stage_reduce in ER. destruct compact.
    - destruct (to_compact_dfa fuel d [0%nat]) as [d1|] eqn:E1; [|discriminate]. exists d1. split; [exact ER|].
      destruct (CO eq_refl) as (f & FA & TA).
      destruct (compact_correct d [0%nat] f fuel d1) as (OK1 & VD1 & SY1 & C1 & A1); auto.
      { constructor; [intros []|constructor]. } { intros q [<-|[]]. exact C. } { intros p P1 P2. apply TA; [exact P1|]. intros ->. apply P2. left. reflexivity. }
      assert (DJ1 : disjoint_symbols d1) by (intros i j x; rewrite SY1; apply DJ).
      split; [exact OK1|]. split; [exact DJ1|]. split; [exact VD1|]. split; [|intros w x; apply (A1 0%nat 0%nat eq_refl)].
      destruct (count_states d1) as [|c1] eqn:EC; [|lia]. exfalso. destruct (first_accepting_word d f FA RE) as (w & x & AX).
      apply (A1 0%nat 0%nat eq_refl) in AX. destruct AX as (q & _ & I). unfold actions_for_state in I. rewrite EC in I. destruct I.
    - exists d. split; [exact ER|]. split; [exact OK|]. split; [exact DJ|]. split; [exact VD|]. split; [exact C|]. reflexivity. }
  destruct S1 as (d1 & ER1 & OK1 & DJ1 & VD1 & C1 & W1). destruct merge.
  - destruct (merge_correct d1 OK1 DJ1 VD1) as (r' & E2 & OK2 & DJ2 & VD2 & C2 & P2 & A2 & _). assert (r' = r) by congruence. subst r'.
    split; [exact OK2|]. split; [exact DJ2|]. split; [exact VD2|]. split; [lia|]. intros w x. rewrite <- W1. unfold accepts.
    split; intros (q & P & A'); exists q; [rewrite <- A2|rewrite A2]; (split; [apply P2, P|exact A']).
  - injection ER1 as ->. auto.
Qed.

(** ** A lexer whose states have lists of actions is one whose states have the chosen symbol *)
Section Chosen.
  Context {A : Type} (less : A -> A -> bool) (symbol : A -> Z) (d : ndfa A).
  Definition chosen : ndfa Z := mkN (n_states d) (n_symbols d) (map (fun p => (fst p, match snd p with [] => [] | l => [fill_accept less symbol l] end)) (n_accept d)).

  Lemma chosen_find q (l : list (nat * list A)) : mfind Nat.ltb q (map (fun p => (fst p, match snd p with [] => [] | l => [fill_accept less symbol l] end)) l) =
    match mfind Nat.ltb q l with Some l => Some (match l with [] => [] | _ => [fill_accept less symbol l] end) | None => None end.
  Proof. induction l as [|[k v] l IH]; cbn [map mfind fst snd]; [reflexivity|]. destruct (Nat.ltb q k), (Nat.ltb k q); first [exact IH|destruct v; reflexivity]. Qed.
  Lemma chosen_actions q : actions_for_state chosen q = match actions_for_state d q with [] => [] | l => [fill_accept less symbol l] end.
  Proof.
    unfold actions_for_state, chosen, count_states. cbn [n_states n_accept]. rewrite chosen_find. destruct (Nat.leb _ q); [reflexivity|]. destruct (mfind Nat.ltb q (n_accept d)) as [[|x l]|]; reflexivity.
  Qed.
  Lemma chosen_table : accept_table action_less (fun s => s) chosen = accept_table less symbol d.
  Proof.
    unfold accept_table. change (count_states chosen) with (count_states d). apply map_ext. intros q. rewrite chosen_actions. destruct (actions_for_state d q) as [|a l]; [reflexivity|].
    unfold fill_accept at 1. cbn [fold_left]. unfold action_less. rewrite Z.ltb_irrefl. reflexivity.
  Qed.
  Lemma chosen_sorted : msorted Nat.ltb (n_accept d) -> msorted Nat.ltb (n_accept chosen).
  Proof.
    unfold chosen. cbn [n_accept]. unfold msorted. induction 1 as [|p l S IH F]; cbn [map]; [constructor|]. constructor; [exact IH|]. rewrite Forall_forall in *. intros x X. apply in_map_iff in X as (y & <- & Y). cbn [fst]. apply F, Y.
  Qed.
  Lemma chosen_machine k step : machine_of k d step -> machine_of k chosen step.
  Proof. unfold chosen. destruct d as [s y a]. intros M. exact M. Qed.
  Lemma chosen_accepts w s : accepts chosen 0 w s <-> exists q, path d 0 w q /\ actions_for_state d q <> [] /\ s = fill_accept less symbol (actions_for_state d q).
  Proof.
    unfold accepts. split.
    - intros (q & P & I). exists q. split; [exact (same_path_to chosen d eq_refl eq_refl _ _ _ P)|]. rewrite chosen_actions in I. destruct (actions_for_state d q) as [|a l]; [destruct I|]. destruct I as [<-|[]]. split; [discriminate|reflexivity].
    - intros (q & P & NE & ->). exists q. split; [exact (same_path_to d chosen eq_refl eq_refl _ _ _ P)|]. rewrite chosen_actions. destruct (actions_for_state d q); [contradiction|left; reflexivity].
  Qed.

  Lemma chosen_lexer k step text m : ndfa_ok d -> disjoint_symbols d -> verify_is_dfa d = true -> (0 < count_states d)%nat ->
    machine_of k d step -> no_block_after_range (n_symbols d) -> fits k (n_symbols d) -> (forall c, In c text -> 0 <= c < kind_limit k) -> (length text < m)%nat ->
    (forall w s, accepts chosen 0 w s -> 0 <= s) ->
    exists ls st, read_all step (accept_at (accept_table less symbol d)) 0 m (fun _ => None) (stream_new 0 text) [] = Some (ls, st) /\
      contents ls = text /\ forall ls1 l ls2, ls = ls1 ++ l :: ls2 -> munch action_less (fun s => s) (accepts chosen 0) (contents (l :: ls2)) (lx_content l) (lx_matched l).
  Proof.
    intros OK DJ VD C MA NB FI TX LM PO.
    assert (OK' : ndfa_ok chosen) by (apply (same_ok d chosen eq_refl eq_refl OK), chosen_sorted, (ok_accept _ OK)).
    assert (DJ' : disjoint_symbols chosen) by exact DJ.
    assert (VD' : verify_is_dfa chosen = true) by (rewrite (same_verify d chosen eq_refl eq_refl); exact VD).
    assert (V0 : valid_state chosen 0) by (unfold valid_state; change (count_states chosen) with (count_states d); lia).
    destruct (C16_dfa_lemma action_less (fun s => s) chosen k step text 0 0 (fun _ => None) m OK' DJ' (det_of chosen OK' DJ' VD') base_order (chosen_machine k step MA) NB FI TX V0 V0) as (ls & st & R1 & R2 & R3).
    - discriminate.
    - intros seen w a X. apply (PO w a). unfold start_state, default_state in X. destruct seen as [|l seen]; [exact X|]. destruct (is_break_b _); exact X.
    - exact LM.
    - rewrite chosen_table in R1. exists ls, st. split; [exact R1|]. split; [exact R2|]. intros ls1 l ls2 E. destruct (R3 ls1 l ls2 E) as (_ & MU).
      unfold start_state, default_state in MU. destruct (rev ls1) as [|l' seen]; [exact MU|]. destruct (is_break_b _); exact MU.
  Qed.
End Chosen.

(** ** The actions of the lexer stage among all actions *)
Lemma lift_actions_spec d q : state_actions (lift_actions d) q = map Lang_action (state_actions d q).
Proof.
  unfold actions_for_state, lift_actions, count_states. cbn [n_states n_accept]. destruct (Nat.leb _ q); [reflexivity|].
  assert (E : forall l, mfind Nat.ltb q (map (fun p => (fst p, map Lang_action (snd p))) l) = match mfind Nat.ltb q l with Some l => Some (map Lang_action l) | None => None end).
  { induction l as [|[k v] l IH]; cbn [map mfind fst snd]; [reflexivity|]. destruct (Nat.ltb q k), (Nat.ltb k q); first [exact IH|reflexivity]. }
  rewrite E. destruct (mfind Nat.ltb q (n_accept d)); reflexivity.
Qed.
Lemma lift_sorted d : msorted Nat.ltb (n_accept d) -> msorted Nat.ltb (n_accept (lift_actions d)).
Proof.
  unfold lift_actions. cbn [n_accept]. unfold msorted. induction 1 as [|p l S IH F]; cbn [map]; [constructor|]. constructor; [exact IH|]. rewrite Forall_forall in *. intros x X. apply in_map_iff in X as (y & <- & Y). cbn [fst]. apply F, Y.
Qed.

Lemma fill_lang l l' : l <> [] -> (forall a, In a l <-> exists b, In b l' /\ a = Lang_action b) ->
  exists b, In b l' /\ fill_accept any_less any_symbol l = la_symbol b /\ forall c, In c l' -> ~ better c b.
Proof.
  intros NE H. assert (exists l0, l = map Lang_action l0) as (l0 & ->).
  { assert (X : forall a, In a l -> exists b, a = Lang_action b) by (intros a A; apply H in A as (b & _ & ->); eauto). clear H NE. induction l as [|a l IH]; [exists []; reflexivity|].
    destruct (X a (or_introl eq_refl)) as (b & ->). destruct IH as (l0 & ->); [intros a A; apply X; right; exact A|]. exists (b :: l0). reflexivity. }
  assert (H0 : forall b, In b l0 <-> In b l').
  { intros b. split; intros I.
    - destruct (proj1 (H (Lang_action b)) (in_map Lang_action _ _ I)) as (b' & B & E). injection E as ->. exact B.
    - destruct (proj1 (in_map_iff Lang_action l0 (Lang_action b)) (proj2 (H (Lang_action b)) (ex_intro _ b (conj I eq_refl)))) as (b' & E & B). injection E as ->. exact B. }
  destruct l0 as [|x l0]; [contradiction NE; reflexivity|].
  assert (E : fill_accept any_less any_symbol (map Lang_action (x :: l0)) = fill_accept la_less la_symbol (x :: l0)).
  { unfold fill_accept. cbn [map]. change (Lang_action x :: map Lang_action l0) with (map Lang_action (x :: l0)). generalize (x :: l0). intros l.
    clear. revert x. induction l as [|y l IH]; intros x; cbn [map fold_left]; [reflexivity|]. cbn [any_less]. destruct (la_less x y); apply IH. }
  destruct language_order as [O1 O2 O3]. destruct (fill_accept_spec la_less la_symbol O1 O2 O3 (x :: l0)) as (h & H1 & H2 & H3); [discriminate|].
  exists h. split; [apply H0, H1|]. split; [rewrite E; exact H2|]. intros c C BT. apply la_less_spec in BT. rewrite H3 in BT; [discriminate|]. apply H0, C.
Qed.
Lemma fill_base l c : l <> [] -> (forall a, In a l -> a = Base_action c) -> fill_accept any_less any_symbol l = c.
Proof.
  intros NE H. destruct l as [|x l]; [contradiction|]. unfold fill_accept. assert (E : forall l x, (forall a, In a l -> a = Base_action c) -> x = Base_action c -> fold_left (fun h a => if any_less h a then a else h) l x = Base_action c).
  { clear. induction l as [|y l IH]; intros x H E; cbn [fold_left]; [exact E|]. apply IH; [intros a A; apply H; right; exact A|]. destruct (any_less x y); [apply H; left; reflexivity|exact E]. }
  rewrite (E (x :: l) x H); [reflexivity|]. apply H. left. reflexivity.
Qed.

Section Pipe.
  Context (expressions literals : list Z -> option (list Z)) (category : list Z -> option symbol_set)
    (defined : list Z -> list (bool * bool * token)) (used weak : Z -> bool).
  Notation stage_ndfa := (stage_ndfa expressions literals category defined used).
  Notation stage_dfa := (stage_dfa expressions literals category defined used).
  Notation def_ok := (def_ok expressions literals category defined).
  Notation block_words := (block_words used).

  Lemma weak_stage_lemma defs fuel dfuel n d (T : dict) (l : log) d' w2s T' :
    Forall def_ok defs -> stage_ndfa fuel (map def_item defs) = Some n -> all_compatible (n_symbols n) -> stage_dfa fuel dfuel (map def_item defs) = Some d ->
    after sensible T l -> max_symbol T <= no_symbol -> (forall i, In i defs -> exists n, entry n (ld_symbol i) l) ->
    (forall w a, block_words defs w a -> la_weak a = weak (la_symbol a)) ->
    weak_dfa weak (lift_actions d) T = (d', w2s, T') ->
    ndfa_ok d' /\ disjoint_symbols d' /\ verify_is_dfa d' = true /\ (0 < count_states d')%nat /\ (forall q, (q < count_states d')%nat -> exists w, path d' 0 w q) /\
    (forall w, (exists b, accepts d' 0 w b) <-> exists b, block_words defs w b) /\
    (forall w l, l <> [] -> (forall a, In a l <-> accepts d' 0 w a) -> let c := fill_accept any_less any_symbol l in 0 <= c /\
       weak_generates weak used defs (fun c => parent_of c T') (fun c => mfind Z.ltb c w2s) w c) /\
    (forall c s, mfind Z.ltb c w2s = Some s -> exists w, word_symbol used defs w (parent_of c T') /\ weak (parent_of c T') = true /\ lowest_strong weak (word_symbol used defs w) s) /\
    msorted Z.ltb w2s /\ exists l', after sensible T' (l' ++ l) /\ forall c s, In (c, s) l' -> exists w, c = Split w.
  Proof.
    intros F EN AC ED AF LI NA WK EW. destruct (stage_dfa_words expressions literals category defined used defs fuel dfuel n d F EN AC ED) as (OK & DJ & VD & DT & C & W & RE).
    assert (LS : forall q, state_actions (lift_actions d) q = map Lang_action (state_actions d q)) by (intros q; apply lift_actions_spec).
    assert (HW : forall w q, path d 0 w q -> forall s, has_symbol (lift_actions d) q s <-> word_symbol used defs w s).
    { intros w q P s. unfold has_symbol, word_symbol. rewrite LS. split.
      - intros (a & A & <-). apply in_map_iff in A as (b & <- & B). exists b. split; [|reflexivity]. apply W. exists q. auto.
      - intros (b & B & <-). apply W in B. destruct B as (q' & P' & B). rewrite (det_path d DT _ _ _ P' _ P) in B. exists (Lang_action b). split; [apply in_map, B|reflexivity]. }
    assert (RG : forall q s, has_symbol (lift_actions d) q s -> exists n, entry n s l).
    { intros q s HS. pose proof HS as (a & A & _). assert (Q : (q < count_states d)%nat).
      { unfold NdfaModel.actions_for_state in A. change (count_states (lift_actions d)) with (count_states d) in A. destruct (Nat.leb_spec (count_states d) q); [destruct A|assumption]. }
      destruct (RE q Q) as (w & P). apply (HW w q P) in HS. destruct HS as (b & (i & I1 & I2 & I3 & ->) & <-).
      unfold def_action. destruct (unused_ignored used i) eqn:U; cbn [la_symbol]; [|apply NA, I1]. unfold ignored_symbol. destruct (find (unused_ignored used) defs) as [j|] eqn:FJ.
      - apply find_some in FJ as (J & _). apply NA, J.
      - rewrite (find_none _ _ FJ i I1) in U. discriminate. }
    destruct (weak_dfa_lemma weak (lift_actions d) T l (lift_sorted d (ok_accept _ OK)) AF LI RG) as (G & FN). rewrite EW in G, FN. destruct G as [G1 G2 G3 G4 G5 G6 G7 G8]. cbn [fst snd] in *.
    change (n_states (lift_actions d)) with (n_states d) in G1. change (n_symbols (lift_actions d)) with (n_symbols d) in G2.
    assert (CS : count_states d' = count_states d) by exact (same_count d d' G1).
    assert (PT : forall w q, path d' 0 w q <-> path d 0 w q) by (intros w q; split; [exact (same_path_to d' d (eq_sym G1) (eq_sym G2) _ _ _)|exact (same_path_to d d' G1 G2 _ _ _)]).
    assert (DT' : deterministic d') by exact (same_deterministic d d' G1 G2 DT).
    assert (NE : forall q, state_actions d' q <> [] <-> state_actions d q <> []).
    { intros q. destruct (FN q) as (F1 & F2). assert (Y : state_actions (lift_actions d) q <> [] <-> state_actions d q <> []) by (rewrite LS; destruct (state_actions d q); cbn [map]; split; intros X; try discriminate; contradiction).
      destruct (settled_or weak (lift_actions d) T (d', w2s, T') q) as [E|(E & a & A)].
      - exact (FN q).
      - cbn [fst] in E. rewrite E. exact Y.
      - cbn [fst] in *. split; intros _; [|rewrite A; discriminate]. apply Y. intros X. destruct E as ((s & (a' & A' & _) & _) & _). rewrite X in A'. destruct A'. }
    split; [exact (same_ok d d' G1 G2 OK G3)|]. split; [exact (same_disjoint d d' G2 DJ)|]. split; [rewrite (same_verify d d' G1 G2); exact VD|]. split; [lia|].
    split; [intros q Q; rewrite CS in Q; destruct (RE q Q) as (w & P); exists w; apply PT, P|]. split; [|split; [|split; [|split; [exact G4|exact G5]]]].
    3: { intros c s FC. destruct (G8 c s FC) as (_ & q & (L1 & L2 & L3) & H1 & H2). destruct H1 as (a & A & EA). assert (Q : (q < count_states d)%nat).
      { unfold NdfaModel.actions_for_state in A. change (count_states (lift_actions d)) with (count_states d) in A. destruct (Nat.leb_spec (count_states d) q); [destruct A|assumption]. }
      destruct (RE q Q) as (w & P). exists w. split; [apply (HW w q P); exists a; auto|]. split; [exact H2|]. split; [apply (HW w q P), L1|]. split; [exact L2|]. intros t X. apply L3. apply (HW w q P), X. }
    - intros w. split.
      + intros (b & q & P & I). apply PT in P. assert (X : state_actions d q <> []) by (apply NE; intros X; rewrite X in I; destruct I). destruct (state_actions d q) as [|a acts] eqn:EA; [contradiction|].
        exists a. apply W. exists q. rewrite EA. split; [exact P|left; reflexivity].
      + intros (b & B). apply W in B. destruct B as (q & P & I). assert (X : state_actions d' q <> []) by (apply NE; intros X; rewrite X in I; destruct I). destruct (state_actions d' q) as [|a acts] eqn:EA; [contradiction|].
        exists a, q. rewrite EA. split; [apply PT, P|left; reflexivity].
    - intros w ls NL HL. set (c := fill_accept any_less any_symbol ls).
      assert (exists q, path d 0 w q /\ forall a, In a ls <-> In a (state_actions d' q)) as (q & P & HQ).
      { destruct ls as [|x ls]; [contradiction|]. destruct (proj1 (HL x) (or_introl eq_refl)) as (q & P & I). exists q. split; [apply PT, P|]. intros a. rewrite HL. split.
        - intros (q' & P' & I'). rewrite (det_path d' DT' _ _ _ P _ P'). exact I'.
        - intros I'. exists q. auto. }
      assert (LANG : state_actions d' q = map Lang_action (state_actions d q) ->
        exists b, block_words defs w b /\ c = la_symbol b /\ forall x, block_words defs w x -> ~ better x b).
      { intros E. destruct (fill_lang ls (state_actions d q) NL) as (b & B1 & B2 & B3).
        - intros a. rewrite HQ, E, in_map_iff. split; intros (b & X & Y); exists b; auto.
        - exists b. split; [apply W; exists q; auto|]. split; [exact B2|]. intros x X. apply B3. apply W in X. destruct X as (q' & P' & I'). rewrite (det_path d DT _ _ _ P _ P'). exact I'. }
      assert (CW : clashing weak (has_symbol (lift_actions d) q) <-> clashing weak (word_symbol used defs w)).
      { unfold clashing. split; intros ((s & S1 & S2) & (t & T1 & T2)); (split; [exists s; split; [apply (HW w q P), S1|exact S2]|exists t; split; [apply (HW w q P), T1|exact T2]]). }
      assert (PO : forall b, block_words defs w b -> 0 <= la_symbol b < max_symbol T /\ parent_of (la_symbol b) T = la_symbol b).
      { intros b B. destruct (range (lift_actions d) T l AF RG q (la_symbol b)) as (R1 & _ & R3); [apply (HW w q P); exists b; auto|]. auto. }
      destruct (FN q) as (F1 & F2).
      assert (DEC : clashing weak (has_symbol (lift_actions d) q) \/ ~ clashing weak (has_symbol (lift_actions d) q)) by apply clashing_dec.
      destruct DEC as [CL|CL].
      + destruct (F2 CL) as (z & LO & SE). assert (LO' : lowest_strong weak (word_symbol used defs w) z).
        { destruct LO as (L1 & L2 & L3). split; [apply (HW w q P), L1|]. split; [exact L2|]. intros t X. apply L3. apply (HW w q P), X. }
        destruct SE as [[S1 S2]|(c' & w' & S1 & S2 & S3 & S4 & S5 & S6)]; cbn [fst snd] in *.
        * rewrite LS in S1. destruct (LANG S1) as (b & B1 & B2 & B3). destruct (PO b B1) as (P1 & P2). split; [lia|]. right. split; [apply CW, CL|]. exists z.
          assert (BW : weak (la_symbol b) = true).
          { rewrite <- (WK w b B1). destruct (la_weak b) eqn:LB; [reflexivity|]. exfalso. apply CW in CL. destruct CL as ((s & (x & X1 & <-) & X2) & _).
            apply (B3 x X1). left. rewrite (WK w x X1). auto. }
          assert (PC : parent_of c T' = c) by (rewrite B2, G7 by lia; exact P2).
          rewrite PC. split; [exists b; auto|]. split; [rewrite B2; exact BW|]. split; [exact LO'|]. apply S2. split; [apply (HW w q P); exists b; auto|rewrite B2; exact BW].
        * assert (EC : c = c') by (apply fill_base; [exact NL|intros a A; apply HQ in A; rewrite S1 in A; destruct A as [<-|[]]; reflexivity]). subst c'.
          pose proof (i_max _ _ (inv_after _ _ AF)). split; [lia|]. right. split; [apply CW, CL|]. exists z. rewrite S5. split; [apply (HW w q P), S3|]. split; [exact S2|]. split; [exact LO'|exact S6].
      + specialize (F1 CL). rewrite LS in F1. destruct (LANG F1) as (b & B1 & B2 & B3). destruct (PO b B1) as (P1 & _). split; [lia|]. left. split; [intros X; apply CL, CW, X|]. exists b. auto.
  Qed.

  Lemma weak_lexer_lemma defs fuel dfuel rfuel compact merge n d (T : dict) (l : log) d' w2s T' r k step text m :
    Forall def_ok defs -> stage_ndfa fuel (map def_item defs) = Some n -> all_compatible (n_symbols n) -> stage_dfa fuel dfuel (map def_item defs) = Some d ->
    after sensible T l -> max_symbol T <= no_symbol -> (forall i, In i defs -> exists n, entry n (ld_symbol i) l) ->
    (forall w a, block_words defs w a -> la_weak a = weak (la_symbol a)) ->
    weak_dfa weak (lift_actions d) T = (d', w2s, T') ->
    (compact = true -> exists f, first_accepting d' [0%nat] f /\ forall p, (p < count_states d')%nat -> p <> 0%nat -> ~ accepting d' p -> told_apart d' [0%nat] f p) ->
    stage_reduce compact merge rfuel d' = Some r ->
    machine_of k r step -> no_block_after_range (n_symbols r) -> fits k (n_symbols r) -> (forall c, In c text -> 0 <= c < kind_limit k) -> (length text < m)%nat ->
    exists ls st, read_all step (accept_at (accept_table any_less any_symbol r)) 0 m (fun _ => None) (stream_new 0 text) [] = Some (ls, st) /\
      contents ls = text /\ forall ls1 x ls2, ls = ls1 ++ x :: ls2 ->
        weak_cuts weak used defs (fun c => parent_of c T') (fun c => mfind Z.ltb c w2s) (contents (x :: ls2)) (lx_content x) (lx_matched x).
  Proof.
    intros F EN AC ED AF LI NA WK EW CO ER MA NB FI TX LM.
    destruct (weak_stage_lemma defs fuel dfuel n d T l d' w2s T' F EN AC ED AF LI NA WK EW) as (OK & DJ & VD & C & RE & W1 & W2 & _).
    destruct (reduce_lemma d' compact merge rfuel r OK DJ VD C RE CO ER) as (OKR & DJR & VDR & CR & WR). pose proof (det_of r OKR DJR VDR) as DTR.
    assert (CH : forall w s, accepts (chosen any_less any_symbol r) 0 w s -> 0 <= s /\ weak_generates weak used defs (fun c => parent_of c T') (fun c => mfind Z.ltb c w2s) w s).
    { intros w s A. apply chosen_accepts in A as (q & P & NE & ->). apply W2; [exact NE|]. intros a. rewrite <- WR. split.
      - intros I. exists q. auto.
      - intros (q' & P' & I). rewrite (det_path r DTR _ _ _ P _ P'). exact I. }
    assert (CB : forall w, (exists s, accepts (chosen any_less any_symbol r) 0 w s) <-> exists b, block_words defs w b).
    { intros w. rewrite <- W1. split.
      - intros (s & A). apply chosen_accepts in A as (q & P & NE & _). destruct (actions_for_state r q) as [|a acts] eqn:EA; [contradiction|]. exists a. apply WR. exists q. rewrite EA. split; [exact P|left; reflexivity].
      - intros (b & B). apply WR in B. destruct B as (q & P & I). exists (fill_accept any_less any_symbol (actions_for_state r q)). apply chosen_accepts. exists q. split; [exact P|]. split; [intros X; rewrite X in I; destruct I|reflexivity]. }
    destruct (chosen_lexer any_less any_symbol r k step text m OKR DJR VDR CR MA NB FI TX LM) as (ls & st & R1 & R2 & R3); [intros w s A; apply (CH w s A)|].
    exists ls, st. split; [exact R1|]. split; [exact R2|]. intros ls1 x ls2 E. destruct (R3 ls1 x ls2 E) as (R & X). split; [exact R|]. destruct X as [(NE & (b & B & S & M) & X)|(X1 & X2 & X3)]; [left|right].
    - subst b. split; [exact NE|]. split; [apply (CH _ _ B)|]. intros p' rest' b' T1 N B'. destruct (proj2 (CB p') (ex_intro _ b' B')) as (s & A). exact (X p' rest' s T1 N A).
    - split; [exact X1|]. split; [exact X2|]. intros p' rest' b' T1 N B'. destruct (proj2 (CB p') (ex_intro _ b' B')) as (s & A). exact (X3 p' rest' s T1 N A).
  Qed.
End Pipe.
