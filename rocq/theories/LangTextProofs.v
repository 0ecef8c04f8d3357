(** Lemmas that join the language stage to the lexer stage. *)
From Verif Require Import Base OrdMap TextSpec TextModel TextProofs NdfaModel LexerModel LexerSpec RegexModel RegexSpec LexStageModel LexStageSpec LexStageProps TermDictModel TermDictSpec TermDictProofs WeakLexModel WeakLexSpec LangModel LangSpec LangTextSpec LangLexProofs LangStageProofs.
Local Open Scope Z_scope.

Lemma denotes_unique x k k' : denotes x k -> denotes x k' -> k = k'.
Proof.
  assert (Q : forall p r q p' r' q', p :: r ++ [q] = p' :: r' ++ [q'] -> r = r' :> list Z) by (intros p r q p' r' q' E; injection E as _ E; apply app_inj_tail in E; apply E).
  unfold denotes. destruct (lx_kind x); [intros -> ->; reflexivity| | |].
  - intros (p & b & q & s & E & R & ->) (p' & b' & q' & s' & E' & R' & ->). rewrite E in E'. apply Q in E'. subst b'. f_equal. eapply represents_unique; eassumption.
  - intros (p & b & q & s & E & R & ->) (p' & b' & q' & s' & E' & R' & ->). rewrite E in E'. apply Q in E'. subst b'. f_equal. eapply represents_unique; eassumption.
  - intros (p & r & q & E & ->) (p' & r' & q' & E' & ->). f_equal. rewrite E in E'. eapply Q, E'.
Qed.
Lemma forall2_left {X Y} (R : X -> Y -> Prop) l l' x : Forall2 R l l' -> In x l -> exists y, In y l' /\ R x y.
Proof. induction 1 as [|a b l l' H F IH]; intros I; [destruct I|]. destruct I as [->|I]; [exists b; split; [left; reflexivity|exact H]|]. destruct (IH I) as (y & IY & R'). exists y. split; [right; exact IY|exact R']. Qed.
Lemma forall2_right {X Y} (R : X -> Y -> Prop) l l' y : Forall2 R l l' -> In y l' -> exists x, In x l /\ R x y.
Proof. induction 1 as [|a b l l' H F IH]; intros I; [destruct I|]. destruct I as [->|I]; [exists a; split; [left; reflexivity|exact H]|]. destruct (IH I) as (x & IX & R'). exists x. split; [right; exact IX|exact R']. Qed.

Lemma same_prefix {X} (a : list X) : forall b c d, a ++ b = c ++ d -> length a = length c -> a = c.
Proof. induction a as [|x a IH]; intros b [|y c] d E L; try discriminate L; [reflexivity|]. injection E as -> E. injection L as L. f_equal. eapply IH; eassumption. Qed.

(** The kinds of blocks that define terminals *)
Definition terminal_unit (u : Z) : Prop := u = unit_keywords \/ u = unit_lexer \/ u = unit_ignore.
Lemma implicit_units known l e : In e (implicit_defs known l) -> df_unit e = unit_keywords.
Proof.
  revert known. induction l as [|[[k s] n] l IH]; intros known; cbn [implicit_defs]; [intros []|]. destruct (_ || _); [apply IH|]. intros [<-|I]; [reflexivity|eapply IH, I].
Qed.
Lemma explicit_units l e : In e (explicit_defs l) -> terminal_unit (df_unit e).
Proof.
  unfold explicit_defs. rewrite in_flat_map. intros (weak & _ & I). apply in_flat_map in I. destruct I as (ty & T & I). unfold defs_where in I. apply in_flat_map in I. destruct I as (u & _ & I). unfold block_defs in I. destruct u as [ty' b|?|?]; try destruct I.
  destruct (_ && _) eqn:E; [|destruct I]. apply in_map_iff in I. destruct I as (x & <- & _). cbn [df_unit]. apply Bool.andb_true_iff in E. destruct E as [E _]. apply Z.eqb_eq in E. subst ty'. unfold terminal_unit. destruct T as [T|[T|[T|[]]]]; auto.
Qed.
Lemma chain_units ls : forall known e, In e (chain_defs known ls) -> terminal_unit (df_unit e).
Proof.
  induction ls as [|l ls IH]; intros known e; cbn [chain_defs]; [intros []|]. unfold language_defs at 1. rewrite !in_app_iff. intros [[I|I]|I]; [eapply explicit_units, I|left; eapply implicit_units, I|eapply IH, I].
Qed.

Section Stage.
  Context (ls : list (language simple)) (st : stage) (U : name -> Prop) (CL : chain_lex ls U st) (tree_of : token -> tree) (used : Z -> bool).
  Local Notation evs := (chain_defs [] ls).
  Local Notation sym := (sym (s_lex st)).
  Local Notation takes := (takes tree_of evs).
  Local Notation LI := (cl_lex _ _ _ CL).
  (** What the lexer stage gets, in its order *)
  Definition stage_items : list lex_item := flat_map snd (x_defs (s_lex st)).
  Definition stage_defs : list lex_def := map (fun i => mkDef (tree_of (li_token i)) (li_insensitive i) (li_symbol i) (li_unit i) (li_weak i)) stage_items.

  Lemma item_known i : In i stage_items -> exists n e, In e (live n evs) /\ describes (sym n) e i.
  Proof.
    unfold stage_items. rewrite in_flat_map. intros ([n l] & M & I). apply (mfind_in _ name_strict _ (li_sorted _ _ _ _ LI)) in M. pose proof (li_defs _ _ _ _ LI n) as F. unfold entries in F. rewrite M in F.
    destruct (forall2_right _ _ _ _ F I) as (e & E & D). exists n, e. auto.
  Qed.
  Lemma known_item n e : In e (live n evs) -> exists i, In i stage_items /\ describes (sym n) e i.
  Proof.
    intros I. pose proof (li_defs _ _ _ _ LI n) as F. destruct (forall2_left _ _ _ _ F I) as (i & IN & D). exists i. split; [|exact D]. unfold entries in IN. destruct (mfind name_ltb n (x_defs (s_lex st))) as [l|] eqn:M; [|destruct IN].
    unfold stage_items. apply in_flat_map. exists (n, l). split; [|exact IN]. apply (mfind_in _ name_strict _ (li_sorted _ _ _ _ LI)), M.
  Qed.
  Lemma live_known n e : In e (live n evs) -> 0 <= sym n.
  Proof. intros I. apply (lex_inv_known _ _ _ _ n LI). apply live_in in I. destruct I as [I <-]. apply in_map, I. Qed.
  Lemma live_unit n e : In e (live n evs) -> terminal_unit (df_unit e).
  Proof. intros I. apply live_in in I. eapply chain_units, I. Qed.

  Section Readable.
    Context (expressions literals : list Z -> option (list Z)) (category : list Z -> option SymbolSetModel.symbol_set) (defined : list Z -> list (bool * bool * token)).
    Context (READ : forall e k, In e evs -> denotes (df_lexeme e) k -> tree_text (tree_of k) = k /\ tree_ok expressions literals category defined false (df_insensitive e) (tree_of k)).
    Lemma stage_defs_items : map def_item stage_defs = stage_items.
    Proof.
      unfold stage_defs. rewrite map_map. rewrite <- (map_id stage_items) at 2. apply map_ext_in. intros i I. destruct (item_known i I) as (n & e & IE & D & _). unfold def_item. cbn [ld_tree ld_insensitive ld_symbol ld_unit ld_weak].
      rewrite (proj1 (READ e _ (proj1 (live_in _ _ _ IE)) D)). destruct i. reflexivity.
    Qed.
    Lemma stage_defs_ok : Forall (def_ok expressions literals category defined) stage_defs.
    Proof.
      apply Forall_forall. intros d I. unfold stage_defs in I. apply in_map_iff in I. destruct I as (i & <- & I). destruct (item_known i I) as (n & e & IE & D & E2 & E3 & E4 & E5). split; cbn [ld_tree ld_insensitive ld_symbol ld_unit ld_weak].
      - intros _. rewrite E2. apply (READ e _ (proj1 (live_in _ _ _ IE)) D).
      - rewrite E3. eapply live_known, IE.
    Qed.
  End Readable.

  (** *** The words of the definitions *)
  Definition act (n : name) (e : defn) : language_action :=
    if (df_unit e =? unit_ignore) && negb (used (sym n)) then mkLA (ignored_symbol used stage_defs) unit_ignore false else mkLA (sym n) (df_unit e) (df_weak e).
  Lemma stage_words w a : block_words used stage_defs w a <-> exists n e, takes n e w /\ a = act n e.
  Proof.
    assert (A : forall n e i, describes (sym n) e i -> def_action used stage_defs (mkDef (tree_of (li_token i)) (li_insensitive i) (li_symbol i) (li_unit i) (li_weak i)) = act n e).
    { intros n e i (_ & E2 & E3 & E4 & E5). unfold def_action, act, unused_ignored. cbn [ld_symbol ld_unit ld_weak]. rewrite E3, E4, E5. reflexivity. }
    split.
    - intros (d & ID & NU & M & ->). unfold stage_defs in ID. apply in_map_iff in ID. destruct ID as (i & <- & I). destruct (item_known i I) as (n & e & IE & D). exists n, e. split; [|apply A, D]. destruct D as (D & E2 & _). split; [exact IE|]. exists (li_token i). split; [exact D|]. rewrite <- E2. exact M.
    - intros (n & e & (IE & k & DK & M) & ->). destruct (known_item n e IE) as (i & I & D). exists (mkDef (tree_of (li_token i)) (li_insensitive i) (li_symbol i) (li_unit i) (li_weak i)).
      split; [unfold stage_defs; apply in_map_iff; exists i; auto|]. pose proof (A n e i D) as AA. destruct D as (D & E2 & E3 & E4 & E5). cbn [ld_tree ld_insensitive ld_unit]. split; [|split; [|symmetry; exact AA]].
      + rewrite E4. destruct (live_unit n e IE) as [-> | [-> | ->]]; discriminate.
      + rewrite (denotes_unique _ _ _ D DK), E2. exact M.
  Qed.
  Lemma ignored_symbol_known n e : In e (live n evs) -> df_unit e = unit_ignore -> used (sym n) = false ->
    exists n0 e0, In e0 (live n0 evs) /\ df_unit e0 = unit_ignore /\ ignored_symbol used stage_defs = sym n0.
  Proof.
    intros IE UE US. destruct (known_item n e IE) as (i & I & D). unfold ignored_symbol. destruct (find (unused_ignored used) stage_defs) as [d|] eqn:F.
    - apply find_some in F. destruct F as [F1 F2]. unfold stage_defs in F1. apply in_map_iff in F1. destruct F1 as (j & <- & J). destruct (item_known j J) as (n0 & e0 & IE0 & _ & _ & E3 & E4 & _). exists n0, e0. split; [exact IE0|]. cbn [ld_symbol]. split; [|exact E3].
      unfold unused_ignored in F2. cbn [ld_unit] in F2. apply Bool.andb_true_iff in F2. destruct F2 as [F2 _]. apply Z.eqb_eq in F2. congruence.
    - exfalso. destruct D as (_ & _ & E3 & E4 & _). assert (X := find_none _ _ F (mkDef (tree_of (li_token i)) (li_insensitive i) (li_symbol i) (li_unit i) (li_weak i))). unfold unused_ignored in X. cbn [ld_unit ld_symbol] in X. rewrite E3, E4, UE, US in X. cbn in X.
      assert (Y : true = false); [apply X|discriminate Y]. unfold stage_defs. apply in_map_iff. exists i. split; [|exact I]. rewrite E3, E4. rewrite UE. reflexivity.
  Qed.

  Context (CK : clear_kinds tree_of evs).
  Lemma ignored_set n : In n (names evs) -> (In (sym n) (x_ignored (s_lex st)) <-> ignored_name evs n).
  Proof.
    intros K. rewrite (li_ignored_set _ _ _ _ LI). split.
    - intros (e & IE & UE & S). apply (lex_inv_inj _ _ _ _ _ _ LI K) in S. destruct (live_exists n evs K) as [e' IE']. exists e'. split; [exact IE'|]. apply live_in in IE'. destruct IE' as [I' N']. eapply (ck_ignored _ _ CK e e'); try assumption. congruence.
    - intros (e & IE & UE). apply live_in in IE. destruct IE as [IE <-]. exists e. auto.
  Qed.
  Lemma weak_set n e : In e (live n evs) -> smem Z.ltb (sym n) (x_weak (s_lex st)) = df_weak e.
  Proof.
    intros IE. apply live_in in IE. destruct IE as [IE N]. assert (K : In n (map df_name evs)) by (rewrite <- N; apply in_map, IE). destruct (df_weak e) eqn:W.
    - apply (smem_in _ Zltb_strict _ (li_weak_sorted _ _ _ _ LI)). apply (li_weak_set _ _ _ _ LI). exists e. rewrite N. auto.
    - apply Bool.not_true_iff_false. intros X. apply (smem_in _ Zltb_strict _ (li_weak_sorted _ _ _ _ LI)), (li_weak_set _ _ _ _ LI) in X. destruct X as (e' & IE' & W' & S). apply (lex_inv_inj _ _ _ _ _ _ LI K) in S. rewrite <- N in S. rewrite (ck_weak _ _ CK e e' IE IE' S) in W. congruence.
  Qed.
  (** The action of a definition: that of its terminal, or that of an ignored terminal *)
  Lemma act_cases n e : In e (live n evs) -> (df_unit e <> unit_ignore /\ act n e = mkLA (sym n) (df_unit e) (df_weak e)) \/
    (df_unit e = unit_ignore /\ exists n0, ignored_name evs n0 /\ act n e = mkLA (sym n0) unit_ignore false).
  Proof.
    intros IE. unfold act. destruct (Z.eqb_spec (df_unit e) unit_ignore) as [E|E]; cbn [andb]; [|left; auto]. right. split; [exact E|]. destruct (used (sym n)) eqn:US; cbn [negb].
    - exists n. split; [exists e; auto|]. rewrite E. rewrite (ck_strong _ _ CK e (proj1 (live_in _ _ _ IE)) E). reflexivity.
    - destruct (ignored_symbol_known n e IE E US) as (n0 & e0 & IE0 & UE0 & ->). exists n0. split; [exists e0; auto|reflexivity].
  Qed.
  Lemma act_weak n e : In e (live n evs) -> la_weak (act n e) = df_weak e.
  Proof. intros IE. destruct (act_cases n e IE) as [(_ & ->)|(E & n0 & _ & ->)]; [reflexivity|]. symmetry. apply (ck_strong _ _ CK e (proj1 (live_in _ _ _ IE)) E). Qed.
  Definition weak_symbol (s : Z) : bool := smem Z.ltb s (x_weak (s_lex st)).
  Lemma stage_weak w a : block_words used stage_defs w a -> la_weak a = weak_symbol (la_symbol a).
  Proof.
    intros B. apply stage_words in B. destruct B as (n & e & (IE & _) & ->). destruct (act_cases n e IE) as [(_ & ->)|(E & n0 & (e0 & IE0 & UE0) & ->)]; cbn [la_weak la_symbol]; unfold weak_symbol.
    - symmetry. apply weak_set, IE.
    - rewrite (weak_set n0 e0 IE0). symmetry. apply (ck_strong _ _ CK e0 (proj1 (live_in _ _ _ IE0)) UE0).
  Qed.
  Lemma stage_no_clash w : ~ clashing weak_symbol (word_symbol used stage_defs w).
  Proof.
    intros [(s & (a & B & <-) & W) (s' & (a' & B' & <-) & W')]. rewrite <- (stage_weak w a B) in W. rewrite <- (stage_weak w a' B') in W'. apply stage_words in B, B'. destruct B as (n & e & T & ->), B' as (n' & e' & T' & ->).
    rewrite act_weak in W by apply T. rewrite act_weak in W' by apply T'. rewrite (ck_clash _ _ CK w n e n' e' T T') in W. congruence.
  Qed.

  (** *** Words and the symbols they get *)
  Lemma before_symbol n k : defined_before evs n k <-> In n (names evs) /\ In k (names evs) /\ sym n < sym k.
  Proof.
    split.
    - intros (i & j & Hi & Hj & L). pose proof (numbered_symbol _ _ n (Z.of_nat i) (li_dict _ _ _ _ LI) (ex_intro _ i (conj Hi eq_refl))) as Si. pose proof (numbered_symbol _ _ k (Z.of_nat j) (li_dict _ _ _ _ LI) (ex_intro _ j (conj Hj eq_refl))) as Sj.
      split; [apply in_order_in; eapply nth_error_In, Hi|]. split; [apply in_order_in; eapply nth_error_In, Hj|]. unfold LangLexProofs.sym. rewrite Si, Sj. lia.
    - intros (In' & Ik & L). apply in_order_in in In', Ik. destruct (symbol_numbered _ _ n (li_dict _ _ _ _ LI) In') as (i & Hi & Ei). destruct (symbol_numbered _ _ k (li_dict _ _ _ _ LI) Ik) as (j & Hj & Ej). exists i, j. split; [exact Hi|]. split; [exact Hj|]. unfold LangLexProofs.sym in L. lia.
  Qed.
  Lemma live_name n e : In e (live n evs) -> In n (names evs).
  Proof. intros IE. apply live_in in IE. destruct IE as [IE <-]. apply in_map, IE. Qed.
  Lemma generates_word w s : generates used stage_defs w s -> exists n, word tree_of evs w n /\
    ((~ ignored_name evs n /\ s = sym n) \/ (ignored_name evs n /\ exists n0, ignored_name evs n0 /\ s = sym n0)).
  Proof.
    intros (a & B & <- & BEST). apply stage_words in B. destruct B as (n & e & T & ->). exists n. pose proof (live_in _ _ _ (proj1 T)) as [IE NE].
    assert (W : word tree_of evs w n).
    { exists e. split; [exact T|]. intros n' e' T' P. specialize (BEST (act n' e') (proj2 (stage_words w _) (ex_intro _ n' (ex_intro _ e' (conj T' eq_refl))))). apply BEST. clear BEST. right. rewrite !act_weak by first [apply T|apply T']. split; [exact (ck_clash _ _ CK w _ _ _ _ T' T)|].
      destruct (live_unit n e (proj1 T)) as [UE|[UE|UE]], (act_cases n e (proj1 T)) as [(_ & ->)|(UE2 & n0 & _ & ->)], (act_cases n' e' (proj1 T')) as [(UN & ->)|(UE' & n1 & _ & ->)]; cbn [la_unit la_symbol]; unfold preferred, unit_keywords, unit_lexer, unit_ignore in *;
      (destruct P as [P|(P & PN & PB)]; [left; lia|try lia]); right; (split; [exact P|]); apply before_symbol in PB; lia. }
    split; [exact W|]. destruct (act_cases n e (proj1 T)) as [(UE & ->)|(UE & n0 & I0 & ->)]; cbn [la_symbol].
    - left. split; [|reflexivity]. intros (e' & IE' & UE'). apply UE. apply live_in in IE'. destruct IE' as [IE' NE']. eapply (ck_ignored _ _ CK e' e); try assumption. congruence.
    - right. split; [exists e; split; [apply T|exact UE]|]. exists n0. auto.
  Qed.
  Lemma word_unique w n n' : word tree_of evs w n -> word tree_of evs w n' -> n = n' \/ (ignored_name evs n /\ ignored_name evs n').
  Proof.
    intros (e & T & B) (e' & T' & B'). specialize (B n' e' T'). specialize (B' n e T). unfold preferred in *. pose proof (live_name n e (proj1 T)) as K. pose proof (live_name n' e' (proj1 T')) as K'. rewrite before_symbol in B, B'.
    assert (UU : df_unit e = df_unit e') by lia. destruct (Z.eq_dec (df_unit e) unit_ignore) as [E|E].
    - right. split; [exists e; split; [apply T|exact E]|exists e'; split; [apply T'|congruence]].
    - left. apply (lex_inv_inj _ _ _ _ _ _ LI K). destruct (Z.lt_trichotomy (sym n) (sym n')) as [L|[L|L]]; [exfalso|exact L|exfalso].
      + apply B'. right. repeat split; assumption.
      + apply B. right. repeat split; congruence || assumption.
  Qed.

  (** *** Lexemes and terminals *)
  Local Notation ignored := (x_ignored (s_lex st)).
  Definition relevant (l : list LexerModel.lexeme) : list LexerModel.lexeme := filter (fun x => negb (existsb (Z.eqb (lx_matched x)) ignored)) l.
  Lemma ignored_exists s : existsb (Z.eqb s) ignored = true <-> In s ignored.
  Proof. rewrite existsb_exists. split; [intros (x & I & E); apply Z.eqb_eq in E; congruence|]. intros I. exists s. split; [exact I|apply Z.eqb_refl]. Qed.
  Lemma lexed_word x text : cuts used stage_defs text (lx_content x) (lx_matched x) -> forall p rest n, text = p ++ rest -> longest tree_of evs p text -> word tree_of evs p n ->
    p = lx_content x /\ generates used stage_defs p (lx_matched x).
  Proof.
    intros ((r & E) & C) p rest n E' [NE LG] (e & T & _). pose proof (proj2 (stage_words p _) (ex_intro _ n (ex_intro _ e (conj T eq_refl)))) as B. destruct C as [(NE2 & G & C)|(_ & _ & C)]; [|destruct (C p rest _ E' NE B)].
    assert (P : p = lx_content x); [|split; [exact P|rewrite P; exact G]]. specialize (C p rest _ E' NE B). destruct G as (a & BA & _). apply stage_words in BA. destruct BA as (n' & e' & T' & _). specialize (LG _ _ n' e' E NE2 T').
    assert (L : length p = length (lx_content x)) by lia. rewrite E in E'. symmetry in E'. exact (same_prefix _ _ _ _ E' L).
  Qed.
  Lemma lexed_longest x text : cuts used stage_defs text (lx_content x) (lx_matched x) -> generates used stage_defs (lx_content x) (lx_matched x) -> lx_content x <> [] -> longest tree_of evs (lx_content x) text.
  Proof.
    intros ((r & E) & C) G NE. split; [exact NE|]. intros p' rest' n e E' NE' T. destruct C as [(_ & _ & C)|(_ & _ & C)].
    - eapply C; [exact E'|exact NE'|apply stage_words; exists n, e; split; [exact T|reflexivity]].
    - destruct G as (a & B & _). destruct (C _ _ _ E NE B).
  Qed.
  Lemma lexemes_spell l : (forall l1 x l2, l = l1 ++ x :: l2 -> cuts used stage_defs (contents (x :: l2)) (lx_content x) (lx_matched x)) ->
    forall u, spells tree_of evs (contents l) u <-> map lx_matched (relevant l) = map sym u /\ Forall (fun n => In n (names evs)) u.
  Proof.
    induction l as [|x l IH]; intros CUT u.
    - split.
      + intros H. remember (contents []) as t eqn:E. destruct H as [|p rest n u [NE _]|p rest n u [NE _]]; [auto| |]; (destruct p; [destruct (NE eq_refl)|discriminate E]).
      + intros [E _]. destruct u; [constructor|discriminate E].
    - assert (CUT' : forall l1 y l2, l = l1 ++ y :: l2 -> cuts used stage_defs (contents (y :: l2)) (lx_content y) (lx_matched y)) by (intros l1 y l2 E; apply (CUT (x :: l1)); rewrite E; reflexivity).
      specialize (IH CUT'). specialize (CUT [] x l eq_refl). change (contents (x :: l)) with (lx_content x ++ contents l) in *. cbn [relevant filter]. fold (relevant l). split.
      + intros H. remember (lx_content x ++ contents l) as t eqn:E. destruct H as [|p rest n u LG W NI S|p rest n u LG W NI S].
        * exfalso. destruct (lx_content x) as [|? ?] eqn:EX; [|discriminate E]. destruct CUT as [_ [(NE & _)|(LE & _)]]; [destruct (NE eq_refl)|discriminate LE].
        * destruct (lexed_word x _ CUT p rest n eq_refl LG W) as [-> G]. apply app_inv_head in E. subst rest. apply IH in S. destruct S as [S1 S2]. destruct (generates_word _ _ G) as (n' & W' & C). destruct (word_unique _ _ _ W W') as [<-|[I _]]; [|destruct (NI I)].
          destruct C as [(_ & EM)|(I & _)]; [|destruct (NI I)]. assert (K : In n (names evs)) by (destruct W as (e & T & _); eapply live_name, T).
          replace (existsb _ _) with false. { cbn [negb map]. rewrite EM, S1. auto. } symmetry. apply Bool.not_true_iff_false. rewrite ignored_exists, EM. intros I. apply (ignored_set n K) in I. destruct (NI I).
        * destruct (lexed_word x _ CUT p rest n eq_refl LG W) as [-> G]. apply app_inv_head in E. subst rest. apply IH in S. destruct (generates_word _ _ G) as (n' & W' & C).
          assert (X : exists n0, ignored_name evs n0 /\ lx_matched x = sym n0). { destruct C as [(NI' & EM)|(_ & X)]; [|exact X]. destruct (word_unique _ _ _ W W') as [<-|[_ I]]; [destruct (NI' NI)|destruct (NI' I)]. }
          destruct X as (n0 & I0 & EM). replace (existsb _ _) with true; [exact S|]. symmetry. apply ignored_exists. rewrite EM. apply ignored_set; [|exact I0]. destruct I0 as (e & IE & _). eapply live_name, IE.
      + intros [E F]. pose proof CUT as CUT2. destruct CUT2 as (_ & [(NE & G & _)|(_ & EM & _)]).
        * pose proof (lexed_longest x _ CUT G NE) as LG. destruct (generates_word _ _ G) as (n & W & [(NI & EM)|(NI & n0 & I0 & EM)]).
          -- assert (K : In n (names evs)) by (destruct W as (e & T & _); eapply live_name, T). replace (existsb _ _) with false in E. 2:{ symmetry. apply Bool.not_true_iff_false. rewrite ignored_exists, EM. intros I. apply (ignored_set n K) in I. destruct (NI I). }
             cbn [negb map] in E. destruct u as [|n' u]; [discriminate E|]. injection E as E1 E2. rewrite EM in E1. apply (lex_inv_inj _ _ _ _ _ _ LI K) in E1. subst n'. inversion F; subst. apply spells_word; try assumption. apply IH. auto.
          -- replace (existsb _ _) with true in E. 2:{ symmetry. apply ignored_exists. rewrite EM. apply ignored_set; [|exact I0]. destruct I0 as (e & IE & _). eapply live_name, IE. }
             cbn [negb] in E. eapply spells_skip; try eassumption. apply IH. auto.
        * exfalso. replace (existsb _ _) with false in E. 2:{ symmetry. apply Bool.not_true_iff_false. rewrite ignored_exists, EM. intros I. apply (li_ignored_set _ _ _ _ LI) in I. destruct I as (e & IE & _ & S). assert (0 <= sym (df_name e)) by (apply (lex_inv_known _ _ _ _ _ LI), in_map, IE). lia. }
          cbn [negb map] in E. destruct u as [|n' u]; [discriminate E|]. injection E as E1 _. inversion F as [|? ? K _]; subst. apply (lex_inv_known _ _ _ _ _ LI) in K. lia.
  Qed.
End Stage.
