(** Proofs about the lexer side of weak symbols. *)
From Verif Require Import Base OrdMap SymbolSetModel SymbolMapModel NdfaModel NdfaSpec NdfaReduceModel NdfaProofs LexerModel LexerSpec LexerProofs TermDictModel TermDictSpec TermDictProofs WeakLexModel WeakLexSpec.
Local Open Scope Z_scope.

Notation state_actions := NdfaModel.actions_for_state.

Section Dfa.
  Context (weak : Z -> bool).

  Lemma scan_spec acts : forall z l z' l',
    fold_left (fun st a => let '(strongest, found) := st in let sym := any_symbol a in
      if weak sym then (strongest, sins Z.ltb sym found) else (if sym <? strongest then sym else strongest, found)) acts (z, l) = (z', l') ->
    (forall s, In s l' <-> In s l \/ weak s = true /\ exists a, In a acts /\ any_symbol a = s) /\
    (z' <= z /\ (forall a, In a acts -> weak (any_symbol a) = false -> z' <= any_symbol a) /\
     (z' = z \/ weak z' = false /\ exists a, In a acts /\ any_symbol a = z')).
  Proof.
    induction acts as [|a acts IH]; intros z l z' l' E; cbn [fold_left] in E.
    - injection E as <- <-. split; [|split; [lia|split; [intros a []|auto]]]. intros s. split; [auto|]. intros [H|(_ & a & [] & _)]. exact H.
    - destruct (weak (any_symbol a)) eqn:W.
      + destruct (IH _ _ _ _ E) as (I1 & I2 & I3 & I4). split; [|split; [exact I2|]].
        * intros s. rewrite I1, (sins_in Z.ltb Zltb_strict). split.
          -- intros [[->|H]|(W' & b & B & Eb)]; [right; split; [exact W|exists a; split; [left|]; reflexivity]|auto|right; split; [exact W'|exists b; split; [right; exact B|exact Eb]]].
          -- intros [H|(W' & b & [<-|B] & Eb)]; [auto|auto|right; split; [exact W'|exists b; auto]].
        * split; [intros b [<-|B] W'; [congruence|apply I3; auto]|]. destruct I4 as [I4|(W' & b & B & Eb)]; [auto|right; split; [exact W'|exists b; split; [right; exact B|exact Eb]]].
      + destruct (IH _ _ _ _ E) as (I1 & I2 & I3 & I4). split; [|split; [|split]].
        * intros s. rewrite I1. split.
          -- intros [H|(W' & b & B & Eb)]; [auto|right; split; [exact W'|exists b; split; [right; exact B|exact Eb]]].
          -- intros [H|(W' & b & [<-|B] & Eb)]; [auto|congruence|right; split; [exact W'|exists b; auto]].
        * destruct (any_symbol a <? z) eqn:L; lia.
        * intros b [<-|B] W'; [|apply I3; auto]. destruct (any_symbol a <? z) eqn:L; lia.
        * destruct I4 as [I4|(W' & b & B & Eb)]; [|right; split; [exact W'|exists b; split; [right; exact B|exact Eb]]].
          destruct (any_symbol a <? z) eqn:L; [right; rewrite I4; split; [exact W|exists a; split; [left|]; reflexivity]|auto].
  Qed.

  (** What the scan finds in a state whose symbols are in range *)
  Lemma weak_scan_spec acts z l : weak_scan weak acts = (z, l) -> (forall a, In a acts -> any_symbol a < no_symbol) ->
    (forall s, In s l <-> weak s = true /\ exists a, In a acts /\ any_symbol a = s) /\
    (z = no_symbol /\ (forall a, In a acts -> weak (any_symbol a) = true) \/
     z <> no_symbol /\ lowest_strong weak (fun s => exists a, In a acts /\ any_symbol a = s) z).
  Proof.
    intros E R. destruct (scan_spec _ _ _ _ _ E) as (S1 & S2 & S3 & S4). split; [intros s; rewrite S1; cbn [In]; tauto|].
    destruct (Z.eq_dec z no_symbol) as [->|N]; [left; split; [reflexivity|]|right; split; [exact N|]].
    - intros a A. destruct (weak (any_symbol a)) eqn:W; [reflexivity|]. specialize (S3 a A W). specialize (R a A). lia.
    - destruct S4 as [S4|[W (a & A & Ea)]]; [contradiction|]. split; [exists a; auto|]. split; [exact W|]. intros t (b & B & <-) W'. apply S3; auto.
  Qed.

  (** *** The state of the loop *)
  Definition loop_state := (ndfa any_action * list (Z * Z) * dict)%type.
  Context (d0 : ndfa any_action) (T0 : dict) (log0 : log).
  Hypothesis accept0 : msorted Nat.ltb (n_accept d0).
  Hypothesis after0 : after sensible T0 log0.
  Hypothesis limit0 : max_symbol T0 <= no_symbol.
  Hypothesis range0 : forall q s, has_symbol d0 q s -> exists n, entry n s log0.

  Lemma range q s : has_symbol d0 q s -> 0 <= s < max_symbol T0 /\ issued s log0 /\ parent_of s T0 = s.
  Proof.
    intros H. destruct (range0 q s H) as (n & E). pose proof (inv_after _ _ after0) as I. pose proof (entry_issued n s log0 E) as U.
    split; [exact (i_fresh _ _ I s U)|]. split; [exact U|]. eapply parent_root; [exact I|]. intros p P. destruct E as [E|E]; pose proof (log_unique log0 _ _ s (i_once _ _ I) P E) as X; discriminate X.
  Qed.

  (** State [q] still has its actions, and all its weak symbols in [ws] stand for [z]; or it has
      one symbol, split off a weak symbol of the state, which stands for [z]. *)
  Definition settled (st : loop_state) (q : nat) (z : Z) (ws : Z -> Prop) : Prop :=
    (state_actions (fst (fst st)) q = state_actions d0 q /\ forall w, ws w -> mfind Z.ltb w (snd (fst st)) = Some z) \/
    exists c w, state_actions (fst (fst st)) q = [Base_action c] /\ weak w = true /\ has_symbol d0 q w /\ max_symbol T0 <= c < max_symbol (snd st) /\
      parent_of c (snd st) = w /\ mfind Z.ltb c (snd (fst st)) = Some z.

  Record good (st : loop_state) : Prop := {
    g_states : n_states (fst (fst st)) = n_states d0;
    g_symbols : n_symbols (fst (fst st)) = n_symbols d0;
    g_accept : msorted Nat.ltb (n_accept (fst (fst st)));
    g_sorted : msorted Z.ltb (snd (fst st));
    g_after : exists l, after sensible (snd st) (l ++ log0) /\ forall c s, In (c, s) l -> exists w, c = Split w;
    g_max : max_symbol T0 <= max_symbol (snd st);
    g_parent : forall s, s < max_symbol T0 -> parent_of s (snd st) = parent_of s T0;
    g_keys : forall k s, mfind Z.ltb k (snd (fst st)) = Some s -> k < max_symbol (snd st) /\
      exists q, lowest_strong weak (has_symbol d0 q) s /\ has_symbol d0 q (parent_of k (snd st)) /\ weak (parent_of k (snd st)) = true
  }.

  Record extends (st st' : loop_state) : Prop := {
    e_max : max_symbol (snd st) <= max_symbol (snd st');
    e_parent : forall s, s < max_symbol (snd st) -> parent_of s (snd st') = parent_of s (snd st);
    e_map : forall k s, mfind Z.ltb k (snd (fst st)) = Some s -> mfind Z.ltb k (snd (fst st')) = Some s
  }.
  Lemma extends_refl st : extends st st.
  Proof. constructor; auto; lia. Qed.
  Lemma extends_trans a b c : extends a b -> extends b c -> extends a c.
  Proof. intros [A1 A2 A3] [B1 B2 B3]. constructor; [lia| |auto]. intros s L. rewrite B2 by lia. apply A2, L. Qed.

  Lemma settled_ext st st' q z ws : extends st st' -> state_actions (fst (fst st')) q = state_actions (fst (fst st)) q -> settled st q z ws -> settled st' q z ws.
  Proof.
    intros [X1 X2 X3] E [[S1 S2]|(c & w & S1 & S2 & S3 & S4 & S5 & S6)].
    - left. split; [congruence|]. intros w W. apply X3, S2, W.
    - right. exists c, w. split; [congruence|]. split; [exact S2|]. split; [exact S3|]. split; [lia|]. split; [rewrite X2; [exact S5|lia]|apply X3, S6].
  Qed.

  Lemma actions_reset (d : ndfa any_action) q a q' : msorted Nat.ltb (n_accept d) -> (q < count_states d)%nat ->
    state_actions (accept (clear_accept d q) q a) q' = if Nat.eqb q' q then [a] else state_actions d q'.
  Proof.
    intros S Q. unfold NdfaModel.actions_for_state, accept, clear_accept, acc_push, count_states. cbn [n_states n_accept]. unfold count_states in Q.
    rewrite (mfind_mset_same _ natltb_strict _ S). cbn [app]. destruct (Nat.eqb_spec q' q) as [->|N].
    - destruct (Nat.leb_spec (length (n_states d)) q); [lia|]. rewrite (mfind_mset_same _ natltb_strict); [reflexivity|]. apply mset_sorted; [exact natltb_strict|exact S].
    - destruct (Nat.leb_spec (length (n_states d)) q'); [reflexivity|]. rewrite !(mfind_mset_other _ natltb_strict) by auto using (mset_sorted _ natltb_strict). reflexivity.
  Qed.

  (** One weak symbol of one state *)
  Lemma symbol_step st q z w ws : good st -> settled st q z ws -> (q < count_states d0)%nat -> lowest_strong weak (has_symbol d0 q) z -> has_symbol d0 q w -> weak w = true ->
    let st' := weak_symbol q z st w in
    good st' /\ extends st st' /\ settled st' q z (fun x => x = w \/ ws x) /\ forall q', q' <> q -> state_actions (fst (fst st')) q' = state_actions (fst (fst st)) q'.
  Proof.
    intros G SE Q LO HW WW. destruct st as [[d m] T]. cbn zeta. pose proof (range q w HW) as (R1 & R2 & R3).
    destruct G as [G1 G2 G3 G4 G5 G6 G7 G8]. cbn [fst snd] in *. unfold weak_symbol. destruct (mfind Z.ltb w m) as [s|] eqn:F.
    - destruct (Z.eqb_spec s z) as [->|N].
      + split; [constructor; auto|]. split; [apply extends_refl|]. split; [|auto]. destruct SE as [[S1 S2]|SE]; [|right; exact SE].
        left. split; [exact S1|]. intros x [->|X]; [exact F|auto].
      + destruct G5 as (l & A & LS). pose proof (inv_after _ _ A) as IV.
        assert (PW : parent_of w T = w) by (rewrite G7 by lia; exact R3).
        assert (PF : forall x, parent_of x (fst (split_symbol w T)) = if x =? max_symbol T then w else parent_of x T).
        { intros x. unfold split_symbol, add_symbol. rewrite PW. destruct (Z.leb_spec 0 w); [|lia]. cbn [fst]. unfold parent_of at 1. cbn [parent_for]. destruct (Z.eqb_spec x (max_symbol T)) as [->|NX].
          - rewrite (mfind_mset_same _ Zltb_strict); [reflexivity|apply IV].
          - rewrite (mfind_mset_other _ Zltb_strict); [reflexivity|apply IV|exact NX]. }
        assert (MF : max_symbol (fst (split_symbol w T)) = max_symbol T + 1) by (unfold split_symbol, add_symbol; destruct (0 <=? parent_of w T); reflexivity).
        assert (CF : snd (split_symbol w T) = max_symbol T) by (unfold split_symbol, add_symbol; destruct (0 <=? parent_of w T); reflexivity).
        assert (AF : after sensible (fst (split_symbol w T)) ((Split w, max_symbol T) :: l ++ log0)).
        { rewrite <- CF. apply (after_call sensible T (l ++ log0) (Split w) A). cbn [sensible]. destruct R2 as (c & R2). exists c. apply in_or_app. auto. }
        destruct (split_symbol w T) as [T' c] eqn:SP. cbn [fst snd] in *. subst c.
        assert (CD : count_states d = count_states d0) by (unfold count_states; rewrite G1; reflexivity).
        assert (EX : extends (d, m, T) (accept (clear_accept d q) q (Base_action (max_symbol T)), mset Z.ltb (max_symbol T) z m, T')).
        { constructor; cbn [fst snd]; [lia| |].
          - intros x L. rewrite PF. destruct (Z.eqb_spec x (max_symbol T)); [lia|reflexivity].
          - intros k x K. pose proof (G8 k x K) as (L & _). rewrite (mfind_mset_other _ Zltb_strict); [exact K|exact G4|lia]. }
        assert (OT : forall q', q' <> q -> state_actions (accept (clear_accept d q) q (Base_action (max_symbol T))) q' = state_actions d q').
        { intros q' N'. rewrite actions_reset; [|exact G3|lia]. destruct (Nat.eqb_spec q' q); [contradiction|reflexivity]. }
        split; [constructor; cbn [fst snd]|split; [exact EX|split]].
        * exact G1.
        * exact G2.
        * unfold accept, acc_push, clear_accept. cbn [n_accept]. repeat apply mset_sorted; try exact natltb_strict. exact G3.
        * apply mset_sorted; [exact Zltb_strict|exact G4].
        * exists ((Split w, max_symbol T) :: l). split; [exact AF|]. intros c x [E|X]; [injection E as <- _; eauto|exact (LS c x X)].
        * lia.
        * intros x L. rewrite PF. destruct (Z.eqb_spec x (max_symbol T)); [lia|apply G7, L].
        * intros k x K. rewrite MF, PF. destruct (Z.eqb_spec k (max_symbol T)) as [->|NK].
          -- rewrite (mfind_mset_same _ Zltb_strict) in K by exact G4. injection K as <-. split; [lia|]. exists q. auto.
          -- rewrite (mfind_mset_other _ Zltb_strict) in K by auto. destruct (G8 k x K) as (L & Y). split; [lia|exact Y].
        * right. exists (max_symbol T), w. cbn [fst snd]. split; [rewrite actions_reset by (auto; lia); rewrite Nat.eqb_refl; reflexivity|]. split; [exact WW|]. split; [exact HW|]. split; [lia|].
          split; [rewrite PF, Z.eqb_refl; reflexivity|]. apply (mfind_mset_same _ Zltb_strict), G4.
        * exact OT.
    - assert (EX : extends (d, m, T) (d, mset Z.ltb w z m, T)).
      { constructor; cbn [fst snd]; [lia|auto|]. intros k x K. rewrite (mfind_mset_other _ Zltb_strict); [exact K|exact G4|congruence]. }
      split; [constructor; cbn [fst snd]; auto|split; [exact EX|split; [|auto]]].
      + apply mset_sorted; [exact Zltb_strict|exact G4].
      + intros k x K. destruct (Z.eq_dec k w) as [->|NK].
        * rewrite (mfind_mset_same _ Zltb_strict) in K by exact G4. injection K as <-. split; [lia|]. exists q. rewrite G7, R3 by lia. auto.
        * rewrite (mfind_mset_other _ Zltb_strict) in K by auto. apply G8, K.
      + apply (settled_ext _ _ q z ws EX eq_refl) in SE. destruct SE as [[S1 S2]|SE]; [|right; exact SE]. left. split; [exact S1|]. intros x [->|X]; [|auto]. cbn [fst snd]. apply (mfind_mset_same _ Zltb_strict), G4.
  Qed.

  Lemma symbols_steps q z : (q < count_states d0)%nat -> lowest_strong weak (has_symbol d0 q) z -> forall found st ws, good st -> settled st q z ws ->
    (forall w, In w found -> has_symbol d0 q w /\ weak w = true) ->
    let st' := fold_left (weak_symbol q z) found st in
    good st' /\ extends st st' /\ settled st' q z (fun x => In x found \/ ws x) /\ forall q', q' <> q -> state_actions (fst (fst st')) q' = state_actions (fst (fst st)) q'.
  Proof.
    intros Q LO. induction found as [|w found IH]; intros st ws G SE H; cbn [fold_left].
    - split; [exact G|]. split; [apply extends_refl|]. split; [|auto]. destruct SE as [[S1 S2]|SE]; [left|right; exact SE]. split; [exact S1|]. intros x [[]|X]. auto.
    - destruct (H w (or_introl eq_refl)) as (H1 & H2). destruct (symbol_step st q z w ws G SE Q LO H1 H2) as (A1 & A2 & A3 & A4).
      destruct (IH _ _ A1 A3) as (B1 & B2 & B3 & B4); [intros x X; apply H; right; exact X|]. split; [exact B1|]. split; [exact (extends_trans _ _ _ A2 B2)|]. split.
      + destruct B3 as [[S1 S2]|B3]; [left|right; exact B3]. split; [exact S1|]. intros x [[->|X]|X]; auto.
      + intros q' N. rewrite B4 by exact N. apply A4, N.
  Qed.

  (** What a state becomes *)
  Definition finished (st : loop_state) (q : nat) : Prop :=
    (~ clashing weak (has_symbol d0 q) -> state_actions (fst (fst st)) q = state_actions d0 q) /\
    (clashing weak (has_symbol d0 q) -> exists z, lowest_strong weak (has_symbol d0 q) z /\ settled st q z (fun w => has_symbol d0 q w /\ weak w = true)).

  Lemma state_step st q : good st -> (q < count_states d0)%nat -> state_actions (fst (fst st)) q = state_actions d0 q ->
    let st' := weak_state weak st q in
    good st' /\ extends st st' /\ finished st' q /\ forall q', q' <> q -> state_actions (fst (fst st')) q' = state_actions (fst (fst st)) q'.
  Proof.
    intros G Q E. cbn zeta. destruct st as [[d m] T]. cbn [fst snd] in E. unfold weak_state. rewrite E.
    assert (NO : ~ clashing weak (has_symbol d0 q) -> finished (d, m, T) q) by (intros N; split; [intros _; exact E|intros C; contradiction]).
    destruct (state_actions d0 q) as [|a0 acts] eqn:EA.
    - split; [exact G|]. split; [apply extends_refl|]. split; [|auto]. apply NO. intros ((s & (a & A & _) & _) & _). rewrite EA in A. destruct A.
    - rewrite <- EA in E. destruct (weak_scan weak (a0 :: acts)) as [z found] eqn:SC. rewrite <- EA in SC.
      destruct (weak_scan_spec _ z found SC) as (S1 & S2). { intros a A. destruct (range q (any_symbol a)) as (R & _); [exists a; auto|lia]. }
      destruct S2 as [(-> & S2)|(NZ & LO)].
      + rewrite Z.eqb_refl. split; [exact G|]. split; [apply extends_refl|]. split; [|auto]. apply NO. intros (_ & (s & (a & A & <-) & W)). rewrite (S2 a A) in W. discriminate.
      + destruct (Z.eqb_spec z no_symbol); [contradiction|].
        destruct (symbols_steps q z Q LO found (d, m, T) (fun _ => False) G) as (B1 & B2 & B3 & B4); [left; split; [exact E|intros w []]|intros w W; apply S1 in W; unfold has_symbol; tauto|].
        split; [exact B1|]. split; [exact B2|]. split; [|exact B4]. split.
        * intros N. destruct found as [|w found]; [exact E|]. exfalso. apply N. destruct (proj1 (S1 w) (or_introl eq_refl)) as (W1 & W2). split; [exists w; auto|]. exists z. split; apply LO.
        * intros _. exists z. split; [exact LO|]. destruct B3 as [[X1 X2]|B3]; [left; split; [exact X1|]|right; exact B3]. intros w (W1 & W2). apply X2. left. apply S1. auto.
  Qed.

  Lemma finished_ext st st' q : extends st st' -> state_actions (fst (fst st')) q = state_actions (fst (fst st)) q -> finished st q -> finished st' q.
  Proof.
    intros X E [F1 F2]. split; [intros N; rewrite E; auto|]. intros C. destruct (F2 C) as (z & L & SE). exists z. split; [exact L|]. exact (settled_ext st st' q z _ X E SE).
  Qed.

  Lemma states_steps qs : forall st, good st -> NoDup qs -> (forall q, In q qs -> (q < count_states d0)%nat /\ state_actions (fst (fst st)) q = state_actions d0 q) ->
    let st' := fold_left (weak_state weak) qs st in
    good st' /\ extends st st' /\ (forall q, In q qs -> finished st' q) /\ forall q', ~ In q' qs -> state_actions (fst (fst st')) q' = state_actions (fst (fst st)) q'.
  Proof.
    induction qs as [|q qs IH]; intros st G ND H; cbn [fold_left].
    - split; [exact G|]. split; [apply extends_refl|]. split; [intros q []|auto].
    - destruct (H q (or_introl eq_refl)) as (H1 & H2). inversion ND as [|? ? N1 N2]; subst. destruct (state_step st q G H1 H2) as (A1 & A2 & A3 & A4).
      destruct (IH _ A1 N2) as (B1 & B2 & B3 & B4).
      { intros x X. destruct (H x (or_intror X)) as (H3 & H4). split; [exact H3|]. rewrite A4; [exact H4|]. intros ->. contradiction. }
      split; [exact B1|]. split; [exact (extends_trans _ _ _ A2 B2)|]. split.
      + intros x [<-|X]; [|apply B3, X]. eapply finished_ext; [exact B2| |exact A3]. apply B4, N1.
      + intros x X. rewrite B4 by (intros Y; apply X; right; exact Y). apply A4. intros ->. apply X. left. reflexivity.
  Qed.

  Lemma weak_dfa_lemma : let st := weak_dfa weak d0 T0 in good st /\ forall q, finished st q.
  Proof.
    assert (G0 : good (d0, [], T0)).
    { constructor; cbn [fst snd]; auto; try lia; [constructor| |intros k s K; discriminate K]. exists []. split; [exact after0|intros c s []]. }
    cbn zeta. unfold weak_dfa. destruct (states_steps (seq 0 (count_states d0)) (d0, [], T0) G0 (seq_NoDup _ _)) as (A1 & A2 & A3 & A4).
    { intros q H. apply in_seq in H. split; [lia|reflexivity]. }
    split; [exact A1|]. intros q. destruct (Nat.lt_ge_cases q (count_states d0)) as [L|L]; [apply A3, in_seq; lia|].
    split; [intros _; apply A4; rewrite in_seq; lia|]. intros ((s & (a & A & _) & _) & _). unfold NdfaModel.actions_for_state in A. destruct (Nat.leb_spec (count_states d0) q); [destruct A|lia].
  Qed.

  Lemma clashing_dec q : clashing weak (has_symbol d0 q) \/ ~ clashing weak (has_symbol d0 q).
  Proof.
    unfold clashing, has_symbol. generalize (state_actions d0 q). intros acts.
    assert (D : forall f : Z -> bool, (exists s, (exists a, In a acts /\ any_symbol a = s) /\ f s = true) \/ ~ (exists s, (exists a, In a acts /\ any_symbol a = s) /\ f s = true)).
    { intros f. destruct (existsb (fun a => f (any_symbol a)) acts) eqn:E.
      - left. apply existsb_exists in E as (a & A & E). exists (any_symbol a). split; [exists a; auto|exact E].
      - right. intros (s & (a & A & <-) & E'). assert (X : existsb (fun a => f (any_symbol a)) acts = true) by (apply existsb_exists; exists a; auto). congruence. }
    destruct (D weak) as [W|W], (D (fun s => negb (weak s))) as [S|S].
    - left. split; [exact W|]. destruct S as (s & H & E). exists s. split; [exact H|]. destruct (weak s); [discriminate|reflexivity].
    - right. intros (_ & s & H & E). apply S. exists s. split; [exact H|]. rewrite E. reflexivity.
    - right. intros (X & _). contradiction.
    - right. intros (X & _). contradiction.
  Qed.
  Lemma settled_or st q : finished st q -> state_actions (fst (fst st)) q = state_actions d0 q \/ clashing weak (has_symbol d0 q) /\ exists a, state_actions (fst (fst st)) q = [a].
  Proof.
    intros (F1 & F2). destruct (clashing_dec q) as [C|C]; [|auto]. destruct (F2 C) as (z & _ & [[S1 _]|(c & w & S1 & _)]); [auto|]. right. split; [exact C|]. exists (Base_action c). exact S1.
  Qed.
End Dfa.
