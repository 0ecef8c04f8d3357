(** C64: weak symbols, from the definitions of a language block to the actions of the parser. *)
From Verif Require Import Base OrdMap SymbolSetModel SymbolSetSpec SymbolSetProofs SymbolMapModel SymbolMapSpec SymbolMapProofs DedupProofs
  NdfaModel NdfaSpec NdfaProofs NdfaRunProofs NdfaReduceModel NdfaReduceSpec SymbolTableModel SymbolTableSpec StateMachineModel StateMachineSpec
  TextModel TextSpec LexerModel LexerSpec RegexModel RegexSpec RegexTokenProofs TermDictModel TermDictSpec TermDictProofs TermDictProps
  LexStageModel LexStageSpec LexPipeProofs LexStageProps WeakLexModel WeakLexSpec WeakPipeProofs WeakRecordProofs.
From Verif Require GrammarModel FirstModel ActionModel RewriteModel RewriteSpec.
Local Open Scope Z_scope.

(** ** The lexer.  The definitions are those of C62; their symbols have names in the dictionary of
    terminals, and a definition is weak exactly if its symbol is.  Missing for the full statement:
    the definitions C62 does not cover, and the cases refuted below. *)
Theorem C64_lexer_partial (expressions literals : list Z -> option (list Z)) (category : list Z -> option symbol_set)
  (defined : list Z -> list (bool * bool * token)) (used weak : Z -> bool) (defs : list lex_def) fuel dfuel rfuel (compact merge : bool) n d
  (T : dict) (l : log) d' weak_to_strong T' r k step text m :
  Forall (def_ok expressions literals category defined) defs ->
  stage_ndfa expressions literals category defined used fuel (map def_item defs) = Some n -> all_compatible (n_symbols n) ->
  stage_dfa expressions literals category defined used fuel dfuel (map def_item defs) = Some d ->
  after sensible T l -> max_symbol T <= no_symbol -> (forall i, In i defs -> exists n, entry n (ld_symbol i) l) ->
  (forall w a, block_words used defs w a -> la_weak a = weak (la_symbol a)) ->
  weak_dfa weak (lift_actions d) T = (d', weak_to_strong, T') ->
  (compact = true -> exists f, first_accepting d' [0%nat] f /\
     forall p, (p < count_states d')%nat -> p <> 0%nat -> ~ accepting d' p -> told_apart d' [0%nat] f p) ->
  stage_reduce compact merge rfuel d' = Some r ->
  machine_of k r step -> no_block_after_range (n_symbols r) -> fits k (n_symbols r) ->
  (forall c, In c text -> 0 <= c < kind_limit k) -> (length text < m)%nat ->
  exists ls st, read_all step (accept_at (accept_table any_less any_symbol r)) 0 m (fun _ => None) (stream_new 0 text) [] = Some (ls, st) /\
    contents ls = text /\ forall ls1 x ls2, ls = ls1 ++ x :: ls2 ->
      weak_cuts weak used defs (fun c => parent_of c T') (fun c => mfind Z.ltb c weak_to_strong) (contents (x :: ls2)) (lx_content x) (lx_matched x).
Proof. exact (weak_lexer_lemma expressions literals category defined used weak defs fuel dfuel rfuel compact merge n d T l d' weak_to_strong T' r k step text m). Qed.
Print Assumptions C64_lexer_partial.

(** Every entry of the table comes from a word with a clash, and the dictionary has only changed by
    splitting symbols. *)
Theorem C64_table_partial (expressions literals : list Z -> option (list Z)) (category : list Z -> option symbol_set)
  (defined : list Z -> list (bool * bool * token)) (used weak : Z -> bool) (defs : list lex_def) fuel dfuel n d
  (T : dict) (l : log) d' weak_to_strong T' :
  Forall (def_ok expressions literals category defined) defs ->
  stage_ndfa expressions literals category defined used fuel (map def_item defs) = Some n -> all_compatible (n_symbols n) ->
  stage_dfa expressions literals category defined used fuel dfuel (map def_item defs) = Some d ->
  after sensible T l -> max_symbol T <= no_symbol -> (forall i, In i defs -> exists n, entry n (ld_symbol i) l) ->
  (forall w a, block_words used defs w a -> la_weak a = weak (la_symbol a)) ->
  weak_dfa weak (lift_actions d) T = (d', weak_to_strong, T') ->
  msorted Z.ltb weak_to_strong /\
  (forall c s, mfind Z.ltb c weak_to_strong = Some s -> exists w, word_symbol used defs w (parent_of c T') /\ weak (parent_of c T') = true /\ lowest_strong weak (word_symbol used defs w) s) /\
  exists l', after sensible T' (l' ++ l) /\ forall c s, In (c, s) l' -> exists w, c = Split w.
Proof.
  intros F EN AC ED AF LI NA WK EW.
  destruct (weak_stage_lemma expressions literals category defined used weak defs fuel dfuel n d T l d' weak_to_strong T' F EN AC ED AF LI NA WK EW) as (_ & _ & _ & _ & _ & _ & _ & H1 & H2 & H3). auto.
Qed.
Print Assumptions C64_table_partial.

(** ** The parser.  A state without actions of its own for the symbol [c] does for it what it does
    for the strong symbol that [c] stands for. *)
Theorem C64_parser (weak : FirstModel.iset) (weak_to_strong : list (Z * Z)) q acts c s :
  msorted Z.ltb weak_to_strong -> mfind Z.ltb c weak_to_strong = Some s -> ~ In (GrammarModel.ITerm s) weak ->
  ssorted ActionModel.action_ltb acts -> ~ RewriteSpec.has_own acts c ->
  forall a, ActionModel.a_item a = GrammarModel.ITerm c -> ActionModel.a_type a <> ActionModel.Guard ->
  In a (RewriteModel.weak_rewrite (weak_record weak_to_strong weak RewriteModel.no_weak) q acts) <->
  exists b, In b acts /\ ActionModel.a_item b = GrammarModel.ITerm s /\ RewriteSpec.as_strong c b a.
Proof. exact (record_rewrite weak weak_to_strong q acts c s). Qed.
Print Assumptions C64_parser.

(** *** A concrete block: identifiers (0), a weak keyword "if" (1), the digit 7 (2) and a weak symbol
    (3) that stands for "x" as well as for "7".  The last is split. *)
Definition weak_block : list lex_def :=
  [mkDef (TRegex (RPlus letters)) false 0 3 false; mkDef (TLiteral [105; 102]) false 1 2 true; mkDef (TLiteral [55]) false 2 3 false;
   mkDef (TLiteral [120]) false 3 2 true; mkDef (TLiteral [55]) false 3 2 true].
Definition weak_13 (s : Z) : bool := (s =? 1) || (s =? 3).
Definition names (n : nat) : dict * log := run_calls (map (fun k => Named [Z.of_nat k]) (seq 0 n)).

Lemma names_after n : after sensible (fst (names n)) (snd (names n)) /\ (forall s, 0 <= s < Z.of_nat n -> exists m, entry m s (snd (names n))) /\
  max_symbol (fst (names n)) = Z.of_nat n /\ forall m s, entry m s (snd (names n)) -> exists k, (k < n)%nat /\ m = [Z.of_nat k].
Proof.
  unfold names, run_calls. induction n as [|n (IH1 & IH2 & IH3 & IH4)].
  - split; [constructor|]. split; [intros s S; lia|]. split; [reflexivity|]. intros m s [[]|[]].
  - rewrite seq_S, map_app, fold_left_app. cbn [map fold_left plus]. destruct (fold_left _ (map _ (seq 0 n)) (new_dict, [])) as [d l]. cbn [fst snd] in *.
    split; [apply after_call; [exact IH1|]; cbn [sensible]; intros s E; destruct (IH4 _ _ E) as (k & K & X); injection X; lia|].
    assert (EP : snd (perform (Named [Z.of_nat n]) d) = Z.of_nat n) by (cbn [perform add_named add_symbol snd]; exact IH3).
    split; [|split].
    + intros s S. destruct (Z.eq_dec s (Z.of_nat n)) as [->|N].
      * exists [Z.of_nat n]. left. left. f_equal. exact EP.
      * destruct (IH2 s) as (m & E); [lia|]. exists m. destruct E as [E|E]; [left|right]; right; exact E.
    + cbn [perform add_named add_symbol fst max_symbol]. lia.
    + intros m s E. apply entry_cons in E as [(_ & [E|E])|E]; [injection E as <-; exists n; split; [lia|reflexivity]|discriminate E|]. destruct (IH4 m s E) as (k & K & ->). exists k. split; [lia|reflexivity].
Qed.

Definition weak_n : ndfa language_action := Eval vm_compute in
  match stage_ndfa no_names no_names no_category no_defs none_used 20 (map def_item weak_block) with Some n => n | None => ndfa_new end.
Definition weak_d : ndfa language_action := Eval vm_compute in
  match stage_dfa no_names no_names no_category no_defs none_used 20 20 (map def_item weak_block) with Some d => d | None => ndfa_new end.
Definition weak_d' : ndfa any_action := Eval vm_compute in fst (fst (weak_dfa weak_13 (lift_actions weak_d) (fst (names 4)))).

(** "if x7y": the keyword (1), then 3, then 4, which was split off 3, then an identifier *)
Example C64_nontrivial :
  Forall (def_ok no_names no_names no_category no_defs) weak_block /\
  stage_ndfa no_names no_names no_category no_defs none_used 20 (map def_item weak_block) = Some weak_n /\ all_compatible (n_symbols weak_n) /\
  stage_dfa no_names no_names no_category no_defs none_used 20 20 (map def_item weak_block) = Some weak_d /\
  (after sensible (fst (names 4)) (snd (names 4)) /\ max_symbol (fst (names 4)) <= no_symbol /\ forall i, In i weak_block -> exists n, entry n (ld_symbol i) (snd (names 4))) /\
  (forall w a, block_words none_used weak_block w a -> la_weak a = weak_13 (la_symbol a)) /\
  let '(d', m, T') := weak_dfa weak_13 (lift_actions weak_d) (fst (names 4)) in
  d' = weak_d' /\ m = [(1, 0); (3, 0); (4, 2)] /\ parent_of 4 T' = 3 /\
  no_block_after_range (n_symbols d') /\ fits Kchar (n_symbols d') /\
  option_map (fun x => map (fun l => (lx_content l, lx_matched l)) (fst x))
    (read_all (compact_run Kchar d' (n_states d')) (accept_at (accept_table any_less any_symbol d')) 0 20 (fun _ => None) (stream_new 0 [105; 102; 32; 120; 55; 121]) []) =
  Some [([105; 102], 1); ([32], -1); ([120], 3); ([55], 4); ([121], 0)].
Proof.
  split; [|split; [vm_compute; reflexivity|split; [apply all_compatible_b_sound; vm_compute; reflexivity|split; [vm_compute; reflexivity|split; [|split]]]]].
  - repeat (apply Forall_cons); [..|apply Forall_nil]; (split; [intros _|cbn; lia]); cbn [ld_insensitive ld_tree].
    + split; [|reflexivity]. cbn [well_formed_in letters]. split; [|split; discriminate].
      split; [|split; [discriminate|exists 97; exists (Between (Raw 97) (Raw 122)); cbn; split; [auto|lia]]]. constructor; [|constructor].
      split; [split; small|]. split; [split; small|cbn; lia].
    + apply literal_ok. repeat constructor; lia.
    + apply literal_ok. repeat constructor; lia.
    + apply literal_ok. repeat constructor; lia.
    + apply literal_ok. repeat constructor; lia.
  - destruct (names_after 4) as (A1 & A2 & A3 & _). split; [exact A1|]. split; [rewrite A3; vm_compute; discriminate|].
    intros i I. apply A2. destruct I as [<-|[<-|[<-|[<-|[<-|[]]]]]]; cbn; lia.
  - intros w a (i & I & _ & _ & ->). destruct I as [<-|[<-|[<-|[<-|[<-|[]]]]]]; reflexivity.
  - assert (AL : forall i r, In r (sm_get (n_symbols weak_d') i) -> hi r < 256 /\ 0 <= lo r < 256).
    { intros i r H. unfold sm_get in H. destruct ((i <? 0) || (Z.of_nat (length (sm_sets (n_symbols weak_d'))) <=? i)); [destruct H|].
      assert (FA : forallb (fun s => forallb (fun r => (hi r <? 256) && ((0 <=? lo r) && (lo r <? 256))) s) (sm_sets (n_symbols weak_d')) = true) by (vm_compute; reflexivity).
      destruct (Nat.lt_ge_cases (Z.to_nat i) (length (sm_sets (n_symbols weak_d')))) as [L|L]; [|rewrite nth_overflow in H by exact L; destruct H].
      rewrite forallb_forall in FA. specialize (FA _ (nth_In _ [] L)). rewrite forallb_forall in FA. specialize (FA r H). apply andb_prop in FA as (F1 & F2).
      apply andb_prop in F2 as (F2 & F3). apply Z.ltb_lt in F1, F3. apply Z.leb_le in F2. auto. }
    destruct (weak_dfa weak_13 (lift_actions weak_d) (fst (names 4))) as [[d' m] T'] eqn:E.
    assert (E1 : d' = weak_d') by (change d' with (fst (fst (d', m, T'))); rewrite <- E; vm_compute; reflexivity).
    assert (E2 : m = [(1, 0); (3, 0); (4, 2)]) by (change m with (snd (fst (d', m, T'))); rewrite <- E; vm_compute; reflexivity).
    assert (E3 : parent_of 4 T' = 3) by (change T' with (snd (d', m, T')); rewrite <- E; vm_compute; reflexivity).
    split; [exact E1|]. split; [exact E2|]. split; [exact E3|]. clear E. subst d'. split; [|split; [|vm_compute; reflexivity]].
    + intros i j r r' H1 H2 _ (z & D). destruct (AL j r' H2). lia.
    + intros _ i r H. apply (AL i r H).
Qed.

(** ** Where the full statement fails *)
Definition lexed (weak : Z -> bool) (defs : list lex_def) (n : nat) (text : list Z) : option (list (list Z * Z)) :=
  match stage_dfa no_names no_names no_category no_defs none_used 20 20 (map def_item defs) with
  | None => None
  | Some d => let '(d', _, _) := weak_dfa weak (lift_actions d) (fst (names n)) in
      option_map (fun x => map (fun l => (lx_content l, lx_matched l)) (fst x))
        (read_all (compact_run Kchar d' (n_states d')) (accept_at (accept_table any_less any_symbol d')) 0 20 (fun _ => None) (stream_new 0 text) [])
  end.
Definition table_of (weak : Z -> bool) (defs : list lex_def) (n : nat) : list (Z * Z) * dict :=
  match stage_dfa no_names no_names no_category no_defs none_used 20 20 (map def_item defs) with
  | None => ([], new_dict)
  | Some d => let '(_, m, T') := weak_dfa weak (lift_actions d) (fst (names n)) in (m, T')
  end.
(** Definitions that are single literals of one character *)
Definition lit (c s u : Z) (weak : bool) : lex_def := mkDef (TLiteral [c]) false s u weak.
Lemma lit_matches c c' : tree_matches false false (TLiteral [c]) [c'] <-> c' = c.
Proof.
  cbn [tree_matches l_word]. split.
  - intros (u & v & E & (x & (y & -> & [<-|(X & _)]) & ->) & ->); [injection E as <-; reflexivity|discriminate X].
  - intros ->. exists [c], []. split; [reflexivity|]. split; [|reflexivity]. exists c. split; [exists c; split; [reflexivity|left; reflexivity]|reflexivity].
Qed.
Lemma lit_words defs c a : (forall i, In i defs -> exists c s u b, i = lit c s u b /\ u <> unit_null /\ u <> unit_ignore) ->
  block_words none_used defs [c] a <-> In (lit c (la_symbol a) (la_unit a) (la_weak a)) defs.
Proof.
  intros H. split.
  - intros (i & I & _ & M & ->). destruct (H i I) as (c' & s & u & b & -> & U1 & U2). cbn [ld_insensitive ld_tree lit] in M. apply lit_matches in M. subst c'.
    unfold def_action, unused_ignored. cbn [lit ld_unit ld_symbol ld_weak]. destruct (Z.eqb_spec u unit_ignore); [contradiction|]. cbn [andb la_symbol la_unit la_weak]. exact I.
  - intros I. destruct (H _ I) as (c' & s & u & b & E & U1 & U2). injection E as _ <- <- <-. exists (lit c (la_symbol a) (la_unit a) (la_weak a)). split; [exact I|]. split; [exact U1|]. split; [apply lit_matches; reflexivity|].
    unfold def_action, unused_ignored. cbn [lit ld_unit ld_symbol ld_weak]. destruct (Z.eqb_spec (la_unit a) unit_ignore); [contradiction|]. destruct a. reflexivity.
Qed.
Ltac lits := let i := fresh in let I := fresh in intros i I; repeat (destruct I as [<-|I]; [do 4 eexists; split; [reflexivity|split; discriminate]|]); destruct I.
Ltac lits_ok := repeat (apply Forall_cons); [..|apply Forall_nil]; (split; [intros _; apply literal_ok; repeat constructor; lia|cbn; lia]).

(** A word with two weak symbols: the one with priority is 3, but the word gets a symbol split off 2. *)
Definition two_weak : list lex_def := [lit 97 0 3 false; lit 98 1 3 false; lit 97 2 3 true; lit 98 2 3 true; lit 98 3 2 true].
Theorem C64_priority_refuted : exists weak defs (n : nat) c,
  Forall (def_ok no_names no_names no_category no_defs) defs /\ (forall i, In i defs -> 0 <= ld_symbol i < Z.of_nat n /\ ld_weak i = weak (ld_symbol i)) /\
  generates none_used defs [98] 3 /\ lexed weak defs n [98] = Some [([98], c)] /\ parent_of c (snd (table_of weak defs n)) <> 3.
Proof.
  exists (fun s => 2 <=? s), two_weak, 4%nat, 4. split; [lits_ok|]. split; [intros i [<-|[<-|[<-|[<-|[<-|[]]]]]]; cbn; split; (lia || reflexivity)|]. split; [|split; [vm_compute; reflexivity|vm_compute; discriminate]].
  exists (mkLA 3 2 true). split; [|split; [reflexivity|]].
  - apply lit_words; [lits|]. cbn. tauto.
  - intros b B. apply lit_words in B; [|lits]. unfold better. destruct b as [s u w]. cbn [la_symbol la_unit la_weak] in *. cbn [two_weak In] in B. unfold lit in B.
    destruct B as [B|[B|[B|[B|[B|[]]]]]]; first [discriminate B|inversion B; subst; intuition (try discriminate; lia)].
Qed.
Print Assumptions C64_priority_refuted.

(** The strong symbol is that with the lowest identifier, here 0, and not the one that the word gets
    without the weak definitions, here 1. *)
Definition two_strong : list lex_def := [lit 97 0 3 false; lit 97 1 2 false; lit 97 2 2 true].
Theorem C64_strong_refuted : exists weak defs (n : nat) c,
  Forall (def_ok no_names no_names no_category no_defs) defs /\ (forall i, In i defs -> 0 <= ld_symbol i < Z.of_nat n /\ ld_weak i = weak (ld_symbol i)) /\
  generates none_used (filter (fun i => negb (weak (ld_symbol i))) defs) [97] 1 /\
  lexed weak defs n [97] = Some [([97], c)] /\ mfind Z.ltb c (fst (table_of weak defs n)) = Some 0.
Proof.
  exists (fun s => 2 <=? s), two_strong, 3%nat, 2. split; [lits_ok|]. split; [intros i [<-|[<-|[<-|[]]]]; cbn; split; (lia || reflexivity)|]. split; [|split; vm_compute; reflexivity].
  change (filter (fun i => negb (2 <=? ld_symbol i)) two_strong) with [lit 97 0 3 false; lit 97 1 2 false].
  exists (mkLA 1 2 false). split; [|split; [reflexivity|]].
  - apply lit_words; [lits|]. cbn. tauto.
  - intros b B. apply lit_words in B; [|lits]. unfold better. destruct b as [s u w]. cbn [la_symbol la_unit la_weak] in *. cbn [In] in B. unfold lit in B.
    destruct B as [B|[B|[]]]; first [discriminate B|inversion B; subst; intuition (try discriminate; lia)].
Qed.
Print Assumptions C64_strong_refuted.

(** A state of the parser that takes the weak symbol 2 itself has an action for "a" but none for "b",
    which gets a symbol split off 2. *)
Definition split_block : list lex_def := [lit 97 0 3 false; lit 98 1 3 false; lit 97 2 2 true; lit 98 2 2 true].
Theorem C64_split_refuted : exists weak defs (n : nat) c (acts : ActionModel.action_set),
  Forall (def_ok no_names no_names no_category no_defs) defs /\ (forall i, In i defs -> 0 <= ld_symbol i < Z.of_nat n /\ ld_weak i = weak (ld_symbol i)) /\
  generates none_used defs [97] 2 /\ generates none_used defs [98] 2 /\
  lexed weak defs n [97] = Some [([97], 2)] /\ lexed weak defs n [98] = Some [([98], c)] /\
  ssorted ActionModel.action_ltb acts /\
  let rewritten := RewriteModel.weak_rewrite (weak_record (fst (table_of weak defs n)) [GrammarModel.ITerm 2] RewriteModel.no_weak) 0 acts in
  (exists a, In a rewritten /\ ActionModel.a_item a = GrammarModel.ITerm 2 /\ ActionModel.a_type a = ActionModel.Shift) /\
  (forall a, In a rewritten -> ActionModel.a_item a <> GrammarModel.ITerm c).
Proof.
  exists (fun s => 2 <=? s), split_block, 3%nat, 3, [ActionModel.mkAction ActionModel.Shift (GrammarModel.ITerm 2) 5 ActionModel.no_rule]. split; [lits_ok|].
  split; [intros i [<-|[<-|[<-|[<-|[]]]]]; cbn; split; (lia || reflexivity)|].
  split; [|split; [|split; [vm_compute; reflexivity|split; [vm_compute; reflexivity|split; [repeat constructor|split]]]]].
  - exists (mkLA 2 2 true). split; [apply lit_words; [lits|]; cbn; tauto|]. split; [reflexivity|].
    intros b B. apply lit_words in B; [|lits]. unfold better. destruct b as [s u w]. cbn [la_symbol la_unit la_weak] in *. cbn [split_block In] in B. unfold lit in B.
    destruct B as [B|[B|[B|[B|[]]]]]; first [discriminate B|inversion B; subst; intuition (try discriminate; lia)].
  - exists (mkLA 2 2 true). split; [apply lit_words; [lits|]; cbn; tauto|]. split; [reflexivity|].
    intros b B. apply lit_words in B; [|lits]. unfold better. destruct b as [s u w]. cbn [la_symbol la_unit la_weak] in *. cbn [split_block In] in B. unfold lit in B.
    destruct B as [B|[B|[B|[B|[]]]]]; first [discriminate B|inversion B; subst; intuition (try discriminate; lia)].
  - eexists. split; [vm_compute; left; reflexivity|]. split; reflexivity.
  - intros a A. vm_compute in A. destruct A as [<-|[]]. discriminate.
Qed.
Print Assumptions C64_split_refuted.
