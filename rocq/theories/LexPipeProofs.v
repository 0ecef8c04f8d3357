(** From the definitions of a language block to lexemes and warnings. *)
From Verif Require Import Base OrdMap SymbolSetModel SymbolSetSpec SymbolSetProofs SymbolMapModel SymbolMapSpec SymbolMapProofs
  NdfaModel NdfaSpec NdfaProofs ToDfaProofs NdfaReduceModel NdfaReduceSpec SymbolTableModel SymbolTableSpec CompactProofs MergeProofs ReachProofs StateMachineModel StateMachineSpec StateMachineProofs
  TextModel TextSpec LexerModel LexerSpec LexerProofs LexerDfaProofs RegexModel RegexSpec RegexGraph RegexBuildProofs RegexParseProofs RegexProofs RegexDefsProofs RegexTokenProofs
  LexStageModel LexStageSpec LexStageProofs.
Local Open Scope Z_scope.

Lemma det_path {A} (d : ndfa A) : deterministic d -> forall q w a, path d q w a -> forall b, path d q w b -> a = b.
Proof.
  intros (D1 & D2). intros q w a P. induction P as [q|q id r w a H1 H2 P IH|q id r x w a H1 H2 P IH]; intros b Q.
  - inversion Q as [|? ? ? ? ? K1 K2|]; subst; [reflexivity|]. destruct (D1 _ _ _ K1 K2).
  - destruct (D1 _ _ _ H1 H2).
  - inversion Q as [|? ? ? ? ? K1 K2|? id' r' ? ? ? K1 K2 Q']; subst; [destruct (D1 _ _ _ K1 K2)|]. rewrite (D2 _ _ _ _ _ _ H1 K1 H2 K2) in IH. apply IH, Q'.
Qed.

Lemma first_accepting_word {A} (d : ndfa A) f : first_accepting d [0%nat] f -> (forall q, (q < count_states d)%nat -> exists w, path d 0 w q) -> exists w x, accepts d 0 w x.
Proof.
  intros (L & _ & AC & _) R. destruct (R f L) as (w & P). unfold accepting in AC. destruct (actions_for_state d f) as [|x l] eqn:E; [destruct (AC eq_refl)|].
  exists w, x, f. split; [exact P|]. rewrite E. left. reflexivity.
Qed.

Section Pipe.
  Context (expressions literals : list Z -> option (list Z)) (category : list Z -> option symbol_set)
    (defined : list Z -> list (bool * bool * token)) (used : Z -> bool).
  Notation stage_ndfa := (stage_ndfa expressions literals category defined used).
  Notation stage_dfa := (stage_dfa expressions literals category defined used).
  Notation def_ok := (def_ok expressions literals category defined).
  Notation block_words := (block_words used).

  (** More fuel does not change the result. *)
  Lemma stage_item_more k k' st i r : (k <= k')%nat -> stage_item expressions literals category defined used k st i = Some r ->
    stage_item expressions literals category defined used k' st i = Some r.
  Proof.
    intros L. destruct st as [[b first] sym]. unfold stage_item. destruct (li_unit i =? unit_null); [auto|]. destruct (bland used i).
    - set (b1 := set_case _ _ _). destruct (li_token i) as [re|word]; cbn [add_at]; [|auto].
      destruct (run _ _ _ _ _ _ k re _) as [b2|] eqn:E; [|discriminate]. intros X. rewrite (run_more _ _ _ _ _ _ _ _ _ _ _ L E). exact X.
    - destruct (li_token i) as [re|word]; cbn [add_token]; [|auto]. unfold add_regex. destruct (Nat.leb (count_states (b_nfa b)) 0); [auto|].
      destruct (run _ _ _ _ _ _ k re _) as [b2|] eqn:E; [|discriminate]. intros X. rewrite (run_more _ _ _ _ _ _ _ _ _ _ _ L E). exact X.
  Qed.

  Lemma stage_ndfa_more k k' items d : (k <= k')%nat -> stage_ndfa k items = Some d -> stage_ndfa k' items = Some d.
  Proof.
    intros L. unfold LexStageModel.stage_ndfa. generalize (push (builder_at (A := language_action) ndfa_new false false 0), true, -1) as st.
    induction items as [|i items IH]; intros st; cbn [stage_items]; [auto|].
    destruct (stage_item expressions literals category defined used k st i) as [st'|] eqn:E; [|discriminate]. rewrite (stage_item_more _ _ _ _ _ L E). apply IH.
  Qed.

  Lemma stage_ndfa_words defs fuel n : Forall def_ok defs -> stage_ndfa fuel (map def_item defs) = Some n ->
    ndfa_ok n /\ (0 < count_states n)%nat /\ forall w x, accepts n 0 w x <-> block_words defs w x.
  Proof.
    intros F E. destruct (stage_ndfa_lemma expressions literals category defined used defs F) as (d & k & R & X).
    assert (Some n = Some d) by (rewrite <- (R (fuel + k)%nat ltac:(lia)); symmetry; apply (stage_ndfa_more fuel); [lia|exact E]). injection H as ->. exact X.
  Qed.

  Lemma not_cut_never {A} (d : ndfa A) q w : not_cut (fun _ => false) d q w.
  Proof. intros u v b _ _ _. reflexivity. Qed.

  (** The DFA *)
  Lemma stage_dfa_words defs fuel dfuel n d : Forall def_ok defs -> stage_ndfa fuel (map def_item defs) = Some n -> all_compatible (n_symbols n) ->
    stage_dfa fuel dfuel (map def_item defs) = Some d ->
    ndfa_ok d /\ disjoint_symbols d /\ verify_is_dfa d = true /\ deterministic d /\ (0 < count_states d)%nat /\
    (forall w x, accepts d 0 w x <-> block_words defs w x) /\ (forall q, (q < count_states d)%nat -> exists w, path d 0 w q).
  Proof.
    intros F E AC. unfold LexStageModel.stage_dfa. rewrite E. destruct (stage_ndfa_words defs fuel n F E) as (OK & C & W).
    destruct (unique_lemma n OK AC) as (u & EU & OKU & DJ & _ & CU & AU & PU). rewrite EU. intros ED.
    assert (IN : forall q, In q [0%nat] -> (q < count_states u)%nat) by (intros q [<-|[]]; lia).
    destruct (to_dfa_correct (fun _ => false) u [0%nat] dfuel d OKU DJ IN ED) as (OKD & VD & DT & SY & CD & AD).
    split; [exact OKD|]. split; [intros i j x; rewrite SY; apply DJ|]. split; [exact VD|]. split; [exact DT|]. cbn [length] in CD. split; [lia|]. split.
    - intros w x. rewrite (AD 0%nat 0%nat eq_refl), <- W. split.
      + intros ((q & P & A) & _). exists q. rewrite <- AU. split; [apply PU, P|exact A].
      + intros (q & P & A). split; [|apply not_cut_never]. exists q. rewrite AU. split; [apply PU, P|exact A].
    - intros q Q. exact (to_dfa_reach (fun _ => false) u 0%nat dfuel d ED OKD DT q Q).
  Qed.

  Lemma stage_dfa_ends defs : Forall def_ok defs ->
    exists fuel0 n, (forall fuel, (fuel0 <= fuel)%nat -> stage_ndfa fuel (map def_item defs) = Some n) /\
      (all_compatible (n_symbols n) -> exists dfuel d, forall fuel, (fuel0 <= fuel)%nat -> stage_dfa fuel dfuel (map def_item defs) = Some d).
  Proof.
    intros F. destruct (stage_ndfa_lemma expressions literals category defined used defs F) as (n & k & R & OK & C & _). exists k, n. split; [exact R|]. intros AC.
    destruct (unique_lemma n OK AC) as (u & EU & OKU & DJ & _ & CU & _). destruct (to_dfa_terminates (fun _ => false) u [0%nat] OKU) as (dfuel & d & E).
    { intros q [<-|[]]. lia. }
    exists dfuel, d. intros fuel L. unfold LexStageModel.stage_dfa. rewrite (R fuel L), EU. exact E.
  Qed.

  (** ** Symbols *)
  Lemma block_words_pos defs w a : Forall def_ok defs -> block_words defs w a -> 0 <= la_symbol a.
  Proof.
    intros F (i & J & _ & _ & ->). assert (PS : Forall (fun i => 0 <= ld_symbol i) defs) by (apply Forall_forall; intros j X; rewrite Forall_forall in F; apply (F j X)).
    unfold def_action. destruct (unused_ignored used i) eqn:U; cbn [la_symbol].
    - apply ignored_symbol_pos; [exact PS|]. apply existsb_exists. exists i. auto.
    - rewrite Forall_forall in PS. apply PS, J.
  Qed.

  Lemma cuts_of_munch defs (L : list Z -> language_action -> Prop) text p a : (forall w x, L w x <-> block_words defs w x) -> munch la_less la_symbol L text p a -> cuts used defs text p a.
  Proof.
    intros E (R & X). split; [exact R|]. destruct X as [(NE & (b & B & S & M) & X)|(X1 & X2 & X3)]; [left|right].
    - split; [exact NE|]. split.
      + exists b. split; [apply E, B|]. split; [exact S|]. intros b' B' BT. apply la_less_spec in BT. rewrite M in BT; [discriminate|]. apply E, B'.
      + intros p' rest' b' T N B'. apply (X p' rest' b' T N). apply E, B'.
    - split; [exact X1|]. split; [exact X2|]. intros p' rest' b' T N B'. apply (X3 p' rest' b' T N). apply E, B'.
  Qed.

  (** The lexer *)
  Lemma stage_lexer_lemma defs fuel dfuel rfuel compact merge n d r k step text m :
    Forall def_ok defs -> stage_ndfa fuel (map def_item defs) = Some n -> all_compatible (n_symbols n) ->
    stage_dfa fuel dfuel (map def_item defs) = Some d ->
    (compact = true -> exists f, first_accepting d [0%nat] f /\ forall p, (p < count_states d)%nat -> p <> 0%nat -> ~ accepting d p -> told_apart d [0%nat] f p) ->
    stage_reduce compact merge rfuel d = Some r ->
    machine_of k r step -> no_block_after_range (n_symbols r) -> fits k (n_symbols r) -> (forall c, In c text -> 0 <= c < kind_limit k) -> (length text < m)%nat ->
    exists ls st, read_all step (accept_at (accept_table la_less la_symbol r)) 0 m (fun _ => None) (stream_new 0 text) [] = Some (ls, st) /\
      contents ls = text /\ forall ls1 l ls2, ls = ls1 ++ l :: ls2 -> cuts used defs (contents (l :: ls2)) (lx_content l) (lx_matched l).
  Proof.
    intros F EN AC ED CO ER MA NB FI TX LM. destruct (stage_dfa_words defs fuel dfuel n d F EN AC ED) as (OK & DJ & VD & DT & C & W & _).
    assert (S1 : exists d1, (if compact then to_compact_dfa rfuel d [0%nat] else Some d) = Some d1 /\ (if merge then to_ndfa_with_merged_symbols d1 else Some d1) = Some r /\
      ndfa_ok d1 /\ disjoint_symbols d1 /\ verify_is_dfa d1 = true /\ (0 < count_states d1)%nat /\ forall w x, accepts d1 0 w x <-> block_words defs w x).
    { unfold stage_reduce in ER. destruct compact.
      - destruct (to_compact_dfa rfuel d [0%nat]) as [d1|] eqn:E1; [|discriminate]. exists d1. split; [reflexivity|]. split; [exact ER|].
        destruct (CO eq_refl) as (f & FA & TA).
        destruct (compact_correct d [0%nat] f rfuel d1) as (OK1 & VD1 & SY1 & C1 & A1); auto.
        { constructor; [intros []|constructor]. } { intros q [<-|[]]. exact C. } { intros p P1 P2. apply TA; [exact P1|]. intros ->. apply P2. left. reflexivity. }
        assert (DJ1 : disjoint_symbols d1) by (intros i j x; rewrite SY1; apply DJ).
        split; [exact OK1|]. split; [exact DJ1|]. split; [exact VD1|]. split; [|intros w x; rewrite (A1 0%nat 0%nat eq_refl); apply W].
        (* the compact automaton has its initial state *)
        destruct (count_states d1) as [|c1] eqn:EC; [|lia]. exfalso.
        destruct (first_accepting_word d f FA) as (w & x & AX).
        { intros q Q. exact (proj2 (proj2 (proj2 (proj2 (proj2 (proj2 (stage_dfa_words defs fuel dfuel n d F EN AC ED)))))) q Q). }
        apply (A1 0%nat 0%nat eq_refl) in AX. destruct AX as (q & _ & I). unfold actions_for_state in I. rewrite EC in I. destruct I.
      - exists d. split; [reflexivity|]. split; [exact ER|]. auto 8. }
    destruct S1 as (d1 & _ & ER1 & OK1 & DJ1 & VD1 & C1 & W1).
    assert (S2 : ndfa_ok r /\ disjoint_symbols r /\ verify_is_dfa r = true /\ (0 < count_states r)%nat /\ forall w x, accepts r 0 w x <-> block_words defs w x).
    { destruct merge.
      - destruct (merge_correct d1 OK1 DJ1 VD1) as (r' & E2 & OK2 & DJ2 & VD2 & C2 & P2 & A2 & _). assert (r' = r) by congruence. subst r'.
        split; [exact OK2|]. split; [exact DJ2|]. split; [exact VD2|]. split; [lia|]. intros w x. rewrite <- W1. unfold accepts.
        split; intros (q & P & A); exists q; [rewrite <- A2|rewrite A2]; (split; [apply P2, P|exact A]).
      - injection ER1 as ->. auto. }
    destruct S2 as (OKR & DJR & VDR & CR & WR).
    assert (V0 : valid_state r 0) by (unfold valid_state; lia).
    destruct (C16_dfa_lemma la_less la_symbol r k step text 0 0 (fun _ => None) m OKR DJR (det_of r OKR DJR VDR) language_order MA NB FI TX V0 V0) as (ls & st & R1 & R2 & R3).
    - discriminate.
    - intros seen w a X. apply (block_words_pos defs w a F). apply WR. unfold start_state, default_state in X. destruct seen as [|l seen]; [exact X|]. destruct (is_break_b _); exact X.
    - exact LM.
    - exists ls, st. split; [exact R1|]. split; [exact R2|]. intros ls1 l ls2 E. destruct (R3 ls1 l ls2 E) as (_ & MU). eapply cuts_of_munch; [|exact MU].
      intros w x. cbv beta. rewrite <- WR. unfold start_state, default_state. destruct (rev ls1) as [|l' seen]; [reflexivity|]. destruct (is_break_b _); reflexivity.
  Qed.
End Pipe.

(** ** Warnings *)
Section Warnings.
  Context (used : Z -> bool).
  Notation block_words := (block_words used).

  Lemma not_better_trans a b c : ~ better a b -> ~ better b c -> ~ better a c.
  Proof. unfold better. destruct (la_weak a), (la_weak b), (la_weak c); intuition (try congruence; lia). Qed.
  Lemma not_better_refl a : ~ better a a.
  Proof. unfold better. intuition (try congruence; lia). Qed.
  Lemma better_not a b : better a b -> ~ better b a.
  Proof. unfold better. destruct (la_weak a), (la_weak b); intuition (try congruence; lia). Qed.

  Lemma pick_spec l : forall h c h' c', fold_left pick_action l (h, c) = (h', c') ->
    (forall p, In p c -> In p c') /\ In h' (h :: l) /\ (forall x, In x (h :: l) -> ~ better x h') /\
    (forall p, In p c' -> In p c \/ exists x y, In x (h :: l) /\ In y (h :: l) /\ p = (la_symbol x, la_symbol y) /\ ~ better x y) /\
    (forall x, In x (h :: l) -> x = h' \/ exists y, In (la_symbol x, y) c').
  Proof.
    induction l as [|a l IH]; intros h c h' c' E; cbn [fold_left] in E.
    - injection E as <- <-. split; [auto|]. split; [left; reflexivity|]. split; [intros x [<-|[]]; apply not_better_refl|]. split; [auto|]. intros x [<-|[]]. auto.
    - unfold pick_action at 2 in E. destruct (la_less h a) eqn:LS.
      + apply la_less_spec in LS. destruct (IH _ _ _ _ E) as (I1 & I2 & I3 & I4 & I5). split; [intros p P; apply I1; right; exact P|]. split; [destruct I2 as [<-|I2]; [right; left; reflexivity|right; right; exact I2]|]. split.
        { intros x [<-|[<-|X]]; [|apply I3; left; reflexivity|apply I3; right; exact X]. apply not_better_trans with a; [apply better_not, LS|]. apply I3. left. reflexivity. }
        split.
        * intros p P. apply I4 in P as [[<-|P]|(x & y & X & Y & P)]; [right|auto|right].
          -- exists h, a. split; [left; reflexivity|]. split; [right; left; reflexivity|]. split; [reflexivity|]. apply better_not, LS.
          -- exists x, y. split; [destruct X as [<-|X]; [right; left; reflexivity|right; right; exact X]|]. split; [destruct Y as [<-|Y]; [right; left; reflexivity|right; right; exact Y]|exact P].
        * intros x [<-|[<-|X]]; [right; exists (la_symbol a); apply I1; left; reflexivity|apply I5; left; reflexivity|apply I5; right; exact X].
      + assert (NL : ~ better a h) by (rewrite <- la_less_spec; congruence). destruct (IH _ _ _ _ E) as (I1 & I2 & I3 & I4 & I5). split; [intros p P; apply I1; right; exact P|]. split; [destruct I2 as [<-|I2]; [left; reflexivity|right; right; exact I2]|]. split.
        { intros x [<-|[<-|X]]; [apply I3; left; reflexivity| |apply I3; right; exact X]. apply not_better_trans with h; [exact NL|]. apply I3. left. reflexivity. }
        split.
        * intros p P. apply I4 in P as [[<-|P]|(x & y & X & Y & P)]; [right|auto|right].
          -- exists a, h. split; [right; left; reflexivity|]. split; [left; reflexivity|]. split; [reflexivity|exact NL].
          -- exists x, y. split; [destruct X as [<-|X]; [left; reflexivity|right; right; exact X]|]. split; [destruct Y as [<-|Y]; [left; reflexivity|right; right; exact Y]|exact P].
        * intros x [<-|[<-|X]]; [apply I5; left; reflexivity|right; exists (la_symbol h); apply I1; left; reflexivity|apply I5; right; exact X].
  Qed.

  Definition clash (m : list (Z * list Z)) (t s : Z) : Prop := exists l, mfind Z.ltb t m = Some l /\ In s l.
  Notation add_clash := (fun (m : list (Z * list Z)) (p : Z * Z) => mset Z.ltb (fst p) (sins Z.ltb (snd p) (match mfind Z.ltb (fst p) m with Some s => s | None => [] end)) m).

  Lemma add_clash_spec m p : msorted Z.ltb m -> msorted Z.ltb (add_clash m p) /\ forall t s, clash (add_clash m p) t s <-> clash m t s \/ p = (t, s).
  Proof.
    intros S. destruct p as [t0 s0]. cbn [fst snd]. split; [apply mset_sorted; [apply Zltb_strict|exact S]|]. intros t s. unfold clash. destruct (Z.eq_dec t t0) as [->|N].
    - rewrite (mfind_mset_same _ Zltb_strict) by exact S. split.
      + intros (l & E & I). injection E as <-. apply (sins_in _ Zltb_strict) in I as [->|I]; [auto|]. left. destruct (mfind Z.ltb t0 m) as [l|]; [exists l; auto|destruct I].
      + intros [(l & E & I)|E]; eexists; (split; [reflexivity|]); apply (sins_in _ Zltb_strict); [right; rewrite E; exact I|injection E as <-; left; reflexivity].
    - rewrite (mfind_mset_other _ Zltb_strict) by (try exact S; exact N). split; [auto|]. intros [X|E]; [exact X|]. injection E as -> _. congruence.
  Qed.

  Lemma add_clashes_spec l : forall m, msorted Z.ltb m -> msorted Z.ltb (fold_left add_clash l m) /\ forall t s, clash (fold_left add_clash l m) t s <-> clash m t s \/ In (t, s) l.
  Proof.
    induction l as [|p l IH]; intros m S; cbn [fold_left]; [split; [exact S|intros; cbn; tauto]|].
    destruct (add_clash_spec m p S) as (S1 & E1). destruct (IH _ S1) as (S2 & E2). split; [exact S2|]. intros t s. rewrite E2, E1. cbn [In]. tauto.
  Qed.

  Notation stage_unused_step d := (fun (st : list Z * list (Z * list Z)) q =>
    let '(unused, clashes) := st in
    match pick_actions (actions_for_state d q) with
    | None => st
    | Some (highest, found) => (serase Z.ltb (la_symbol highest) unused, fold_left add_clash (rev found) clashes)
    end).

  Lemma unused_spec d qs : forall un cl un' cl', ssorted Z.ltb un -> msorted Z.ltb cl -> fold_left (stage_unused_step d) qs (un, cl) = (un', cl') ->
    ssorted Z.ltb un' /\ msorted Z.ltb cl' /\
    (forall t, In t un' <-> In t un /\ forall q h f, In q qs -> pick_actions (actions_for_state d q) = Some (h, f) -> la_symbol h <> t) /\
    (forall t s, clash cl' t s <-> clash cl t s \/ exists q h f, In q qs /\ pick_actions (actions_for_state d q) = Some (h, f) /\ In (t, s) f).
  Proof.
    induction qs as [|q qs IH]; intros un cl un' cl' S1 S2 E; cbn [fold_left] in E.
    - injection E as <- <-. split; [exact S1|]. split; [exact S2|]. split; [intros t; split; [intros I; split; [exact I|intros ? ? ? []]|tauto]|].
      intros t s. split; [auto|]. intros [X|(q & _ & _ & [] & _)]. exact X.
    - destruct (pick_actions (actions_for_state d q)) as [[h f]|] eqn:PA.
      + destruct (add_clashes_spec (rev f) cl S2) as (S3 & E3).
        destruct (IH _ _ _ _ (serase_sorted _ Zltb_strict _ S1 _) S3 E) as (T1 & T2 & T3 & T4). split; [exact T1|]. split; [exact T2|]. split.
        * intros t. rewrite T3, (serase_in _ Zltb_strict _ S1). split.
          -- intros ((I & N) & X). split; [exact I|]. intros q' h' f' [<-|Q] P; [|apply (X q' h' f' Q P)]. rewrite PA in P. injection P as <- <-. congruence.
          -- intros (I & X). split; [split; [exact I|]|].
             ++ intros ->. exact (X q h f (or_introl eq_refl) PA eq_refl).
             ++ intros q' h' f' Q P. apply (X q' h' f' (or_intror Q) P).
        * intros t s. rewrite T4, E3, <- in_rev. split.
          -- intros [[X|X]|(q' & h' & f' & Q & P & X)]; [auto|right; exists q, h, f; cbn [In]; auto|right; exists q', h', f'; cbn [In]; auto].
          -- intros [X|(q' & h' & f' & [<-|Q] & P & X)]; [auto| |right; exists q', h', f'; auto]. rewrite PA in P. injection P as <- <-. auto.
      + destruct (IH _ _ _ _ S1 S2 E) as (T1 & T2 & T3 & T4). split; [exact T1|]. split; [exact T2|]. split.
        * intros t. rewrite T3. split; intros (I & X); (split; [exact I|]); intros q' h' f'; [intros [<-|Q] P; [congruence|apply (X q' h' f' Q P)]|intros Q P; apply (X q' h' f' (or_intror Q) P)].
        * intros t s. rewrite T4. split; (intros [X|(q' & h' & f' & Q & P & X)]; [auto|right; exists q', h', f']); [cbn [In]; auto|]. destruct Q as [<-|Q]; [congruence|auto].
  Qed.

  Lemma terminals_sorted n : forall k, ssorted Z.ltb (map Z.of_nat (seq k n)).
  Proof.
    induction n as [|n IH]; intros k; cbn [seq map]; [constructor|]. constructor; [apply IH|]. apply Forall_forall. intros x X. apply in_map_iff in X as (y & <- & Y). apply in_seq in Y. apply Z.ltb_lt. lia.
  Qed.

  (** The choice of a state is the symbol its words get. *)
  Lemma pick_word defs d q w h f : deterministic d -> (forall w x, accepts d 0 w x <-> block_words defs w x) -> path d 0 w q -> pick_actions (actions_for_state d q) = Some (h, f) ->
    (forall a, block_words defs w a <-> In a (actions_for_state d q)) /\ block_words defs w h /\ (forall b, block_words defs w b -> ~ better b h).
  Proof.
    intros DT W P PA. assert (E : forall a, block_words defs w a <-> In a (actions_for_state d q)).
    { intros a. rewrite <- W. split; [|intros I; exists q; auto]. intros (q' & P' & I). assert (q' = q) by exact (det_path d DT 0 w q' P' q P). subst q'. exact I. }
    split; [exact E|]. destruct (actions_for_state d q) as [|a0 l] eqn:EA; [discriminate|]. cbn [pick_actions] in PA. injection PA as PA.
    destruct (pick_spec l a0 [] h f PA) as (_ & P2 & P3 & _). split; [apply E, P2|]. intros b B. apply P3. apply E, B.
  Qed.

  Lemma pick_some d q a : In a (actions_for_state (A := language_action) d q) -> exists h f, pick_actions (actions_for_state d q) = Some (h, f).
  Proof. destruct (actions_for_state d q) as [|a0 l]; [intros []|]. intros _. cbn [pick_actions]. destruct (fold_left pick_action l (a0, [])) as [h f]. eauto. Qed.

  Lemma in_range_actions d q (a : language_action) : In a (actions_for_state d q) -> (q < count_states d)%nat.
  Proof. unfold actions_for_state. destruct (Nat.leb_spec (count_states d) q); [intros []|auto]. Qed.

  Lemma same_choice defs w a h : block_words defs w a -> (forall b, block_words defs w b -> ~ better b a) -> block_words defs w h -> (forall b, block_words defs w b -> ~ better b h) -> la_symbol a = la_symbol h.
  Proof.
    intros A1 A2 H1 H2. specialize (A2 h H1). specialize (H2 a A1). unfold better in *. destruct (la_weak a), (la_weak h); intuition (try congruence; lia).
  Qed.

  Lemma stage_warnings_lemma defs terminals ignored d : deterministic d -> (forall w x, accepts d 0 w x <-> block_words defs w x) -> (forall q, (q < count_states d)%nat -> exists w, path d 0 w q) ->
    let ws := stage_warnings terminals ignored d in
    StronglySorted Z.lt (map fst ws) /\
    (forall t, In t (map fst ws) <-> 0 <= t < Z.of_nat terminals /\ ignored t = false /\ forall w, ~ generates used defs w t) /\
    (forall t ds, In (t, ds) ws -> forall s, In s ds <-> clash (snd (stage_unused terminals d)) t s) /\
    (forall t ds s, In (t, ds) ws -> In s ds -> exists w a, la_symbol a = t /\ loses used defs w a s) /\
    (forall t ds w a, In (t, ds) ws -> block_words defs w a -> la_symbol a = t -> ds <> []).
  Proof.
    intros DT W RE ws. subst ws. unfold stage_warnings. destruct (stage_unused terminals d) as [un cl] eqn:E. unfold stage_unused in E.
    destruct (unused_spec d (seq 0 (count_states d)) (map Z.of_nat (seq 0 terminals)) [] un cl (terminals_sorted terminals 0) ltac:(constructor) E) as (S1 & S2 & T1 & T2).
    assert (DS : forall t s, In s (match mfind Z.ltb t cl with Some s => s | None => [] end) <-> clash cl t s).
    { intros t s. unfold clash. destruct (mfind Z.ltb t cl) as [l|]; [split; [intros I; exists l; auto|intros (l' & E' & I); injection E' as ->; exact I]|split; [intros []|intros (l & E' & _); discriminate]]. }
    split; [|split; [|split; [|split]]].
    - rewrite map_map. cbn [fst]. rewrite map_id. clear - S1. induction un as [|t un IH]; cbn [filter]; [constructor|]. inversion S1 as [|? ? S L]; subst. destruct (negb (ignored t)); [|apply IH, S].
      constructor; [apply IH, S|]. apply Forall_forall. intros x X. apply filter_In in X as (X & _). rewrite Forall_forall in L. apply Z.ltb_lt, L, X.
    - intros t. rewrite map_map. cbn [fst]. rewrite map_id, filter_In, T1, Bool.negb_true_iff, in_map_iff.
      assert (EI : (exists x, Z.of_nat x = t /\ In x (seq 0 terminals)) <-> 0 <= t < Z.of_nat terminals).
      { split; [intros (x & <- & X); apply in_seq in X; lia|]. intros X. exists (Z.to_nat t). rewrite in_seq. lia. }
      rewrite EI. assert (EG : (forall q h f, In q (seq 0 (count_states d)) -> pick_actions (actions_for_state d q) = Some (h, f) -> la_symbol h <> t) <-> (forall w, ~ generates used defs w t)); [|tauto].
      split.
      + intros X w (a & A1 & A2 & A3). pose proof A1 as A1'. apply W in A1 as (q & P & I). destruct (pick_some d q a I) as (h & f & PA).
        destruct (pick_word defs d q w h f DT W P PA) as (EA & H1 & H2). apply (X q h f); [apply in_seq; pose proof (in_range_actions d q a I); lia|exact PA|].
        rewrite <- A2. symmetry. exact (same_choice defs w a h A1' A3 H1 H2).
      + intros X q h f Q PA ES. apply in_seq in Q. destruct (RE q ltac:(lia)) as (w & P). destruct (pick_word defs d q w h f DT W P PA) as (EA & H1 & H2). apply (X w). exists h. auto.
    - intros t ds I s. apply in_map_iff in I as (t' & E' & _). injection E' as -> <-. apply DS.
    - intros t ds s I J. apply in_map_iff in I as (t' & E' & _). injection E' as -> <-. apply DS, T2 in J as [(l & X & _)|(q & h & f & Q & PA & J)]; [discriminate|].
      apply in_seq in Q. destruct (RE q ltac:(lia)) as (w & P). destruct (pick_word defs d q w h f DT W P PA) as (EA & H1 & H2).
      destruct (actions_for_state d q) as [|a0 l]; [discriminate|]. cbn [pick_actions] in PA. injection PA as PA. destruct (pick_spec l a0 [] h f PA) as (_ & _ & _ & P4 & _).
      apply P4 in J as [[]|(x & y & X & Y & EP & NB)]. injection EP as -> ->. exists w, x. split; [reflexivity|]. split; [apply EA, X|]. exists y. split; [apply EA, Y|]. auto.
    - intros t ds w a I B ES. apply in_map_iff in I as (t' & E' & I). injection E' as -> <-. apply filter_In in I as (I & _). apply T1 in I as (_ & I).
      pose proof B as B'. apply W in B as (q & P & J). destruct (pick_some d q a J) as (h & f & PA). pose proof (in_range_actions d q a J) as Q.
      specialize (I q h f ltac:(apply in_seq; lia) PA). pose proof PA as PA'. destruct (actions_for_state d q) as [|a0 l] eqn:EL; [destruct J|]. cbn [pick_actions] in PA. injection PA as PA.
      destruct (pick_spec l a0 [] h f PA) as (_ & _ & _ & _ & P5). destruct (P5 a J) as [->|(y & Y)]; [congruence|].
      assert (CL : clash cl t y) by (apply T2; right; exists q, h, f; split; [apply in_seq; lia|]; rewrite EL; split; [exact PA'|rewrite <- ES; exact Y]).
      apply DS in CL. intros N. rewrite N in CL. destruct CL.
  Qed.
End Warnings.
