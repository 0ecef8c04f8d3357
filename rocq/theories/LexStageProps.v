(** C62 and C63: from the definitions of a language block to the lexer and its warnings. *)
From Verif Require Import Base OrdMap SymbolSetModel SymbolSetSpec SymbolMapModel SymbolMapSpec DedupProofs NdfaModel NdfaSpec NdfaReduceModel NdfaReduceSpec NdfaRunProofs
  SymbolTableModel SymbolTableSpec StateMachineModel StateMachineSpec LexerModel LexerSpec RegexModel RegexSpec LexStageModel LexStageSpec LexStageProofs LexPipeProofs.
Local Open Scope Z_scope.

(** ** C62.  The automaton of the lexer stage accepts exactly the words of the definitions, with
    their actions.  Missing from the full property: the regular expressions that C11 excludes. *)
Theorem C62_words_partial (expressions literals : list Z -> option (list Z)) (category : list Z -> option symbol_set)
  (defined : list Z -> list (bool * bool * token)) (used : Z -> bool) (defs : list lex_def) :
  Forall (def_ok expressions literals category defined) defs ->
  exists d fuel0, (forall fuel, (fuel0 <= fuel)%nat -> stage_ndfa expressions literals category defined used fuel (map def_item defs) = Some d) /\
    ndfa_ok d /\ forall w a, accepts d 0 w a <-> block_words used defs w a.
Proof.
  intros F. destruct (stage_ndfa_lemma expressions literals category defined used defs F) as (d & k & R & OK & _ & W). exists d, k. auto.
Qed.
Print Assumptions C62_words_partial.

(** The subset construction then ends, and its result accepts the same words; it is
    deterministic. *)
Theorem C62_dfa_partial (expressions literals : list Z -> option (list Z)) (category : list Z -> option symbol_set)
  (defined : list Z -> list (bool * bool * token)) (used : Z -> bool) (defs : list lex_def) fuel n :
  Forall (def_ok expressions literals category defined) defs ->
  stage_ndfa expressions literals category defined used fuel (map def_item defs) = Some n -> all_compatible (n_symbols n) ->
  exists dfuel d, stage_dfa expressions literals category defined used fuel dfuel (map def_item defs) = Some d /\
    deterministic d /\ forall w a, accepts d 0 w a <-> block_words used defs w a.
Proof.
  intros F E AC. destruct (stage_dfa_ends expressions literals category defined used defs F) as (k & n' & R & X).
  assert (n' = n).
  { assert (Y := stage_ndfa_more expressions literals category defined used fuel (fuel + k) _ n ltac:(lia) E). rewrite (R (fuel + k)%nat ltac:(lia)) in Y. congruence. }
  subst n'. destruct (X AC) as (dfuel & d & ED). exists dfuel, d.
  assert (ED' : stage_dfa expressions literals category defined used fuel dfuel (map def_item defs) = Some d).
  { specialize (ED k (le_n k)). unfold stage_dfa in *. rewrite E. rewrite (R k (le_n k)) in ED. exact ED. }
  destruct (stage_dfa_words expressions literals category defined used defs fuel dfuel n d F E AC ED') as (_ & _ & _ & DT & _ & W & _). auto.
Qed.
Print Assumptions C62_dfa_partial.

(** The lexer built from it cuts every text into the longest words of the definitions, each with
    the symbol that the documented priorities give it.  Missing from the full property: symbol sets
    excluded in C04 and C05, weak symbols that clash with strong ones (C64), and, with compaction
    switched on, the automata excluded in C09. *)
Theorem C62_lexer_partial (expressions literals : list Z -> option (list Z)) (category : list Z -> option symbol_set)
  (defined : list Z -> list (bool * bool * token)) (used : Z -> bool) (defs : list lex_def) fuel dfuel rfuel (compact merge : bool) n d r k step text m :
  Forall (def_ok expressions literals category defined) defs ->
  stage_ndfa expressions literals category defined used fuel (map def_item defs) = Some n -> all_compatible (n_symbols n) ->
  stage_dfa expressions literals category defined used fuel dfuel (map def_item defs) = Some d ->
  (compact = true -> exists f, first_accepting d [0%nat] f /\
     forall p, (p < count_states d)%nat -> p <> 0%nat -> ~ accepting d p -> told_apart d [0%nat] f p) ->
  stage_reduce compact merge rfuel d = Some r ->
  machine_of k r step -> no_block_after_range (n_symbols r) -> fits k (n_symbols r) ->
  (forall c, In c text -> 0 <= c < kind_limit k) -> (length text < m)%nat ->
  exists ls st, read_all step (accept_at (accept_table la_less la_symbol r)) 0 m (fun _ => None) (stream_new 0 text) [] = Some (ls, st) /\
    contents ls = text /\ forall ls1 l ls2, ls = ls1 ++ l :: ls2 -> cuts used defs (contents (l :: ls2)) (lx_content l) (lx_matched l).
Proof. exact (stage_lexer_lemma expressions literals category defined used defs fuel dfuel rfuel compact merge n d r k step text m). Qed.
Print Assumptions C62_lexer_partial.

(** What [cuts] leaves open is nothing: a text has one first lexeme. *)
Theorem C62_cuts_unique (used : Z -> bool) (defs : list lex_def) text p a p' a' :
  cuts used defs text p a -> cuts used defs text p' a' -> p = p' /\ a = a'.
Proof.
  intros ((r & E) & X) ((r' & E') & X').
  assert (SP : length p = length p' -> p = p').
  { intros L. apply (f_equal (firstn (length p))) in E. rewrite E' in E at 1. rewrite L in E at 1. rewrite !firstn_app, L, !Nat.sub_diag, !firstn_all in E. rewrite <- L, firstn_all in E. cbn [firstn] in E. rewrite !app_nil_r in E. congruence. }
  destruct X as [(NE & (b & B & S & M) & X)|(L & A & X)], X' as [(NE' & (b' & B' & S' & M') & X')|(L' & A' & X')].
  - assert (p = p') by (apply SP; specialize (X p' r' b' E' NE' B'); specialize (X' p r b E NE B); lia). subst p'. split; [reflexivity|].
    rewrite <- S, <- S'. exact (same_choice used defs p b b' B M B' M').
  - destruct (X' p r b E NE B).
  - destruct (X p' r' b' E' NE' B').
  - split; [apply SP; lia|congruence].
Qed.
Print Assumptions C62_cuts_unique.

(** *** A concrete language block: identifiers, the keyword "if" in any case, spaces and "##"
    (both ignored, and not used by the grammar) and "!". *)
Definition no_names : list Z -> option (list Z) := fun _ => None.
Definition no_category : list Z -> option symbol_set := fun _ => None.
Definition no_defs : list Z -> list (bool * bool * token) := fun _ => [].
Definition none_used : Z -> bool := fun _ => false.
Definition chr (c : Z) : re := RAtom (AChr (Raw c)).
Definition letters : re := RAtom (AClass false [Between (Raw 97) (Raw 122)]).
Definition block : list lex_def :=
  [mkDef (TRegex (RPlus letters)) false 0 3 false; mkDef (TLiteral [105; 102]) true 1 2 false; mkDef (TRegex (RPlus (chr 32))) false 2 4 false;
   mkDef (TLiteral [33]) false 3 3 false; mkDef (TLiteral [35; 35]) false 4 4 false].

Lemma chr_ok level c : 0 <= c < c_MaxSymbol -> ~ In c regex_special -> well_formed no_names no_names no_category no_defs false false low up case_safe level (chr c).
Proof. intros H1 H2. cbn [well_formed_in chr]. split; [exact (conj H1 H2)|]. split; discriminate. Qed.
Lemma literal_ok insensitive l : Forall (fun c => 0 <= c < 1000) l -> tree_ok no_names no_names no_category no_defs false insensitive (TLiteral l).
Proof. intros F. cbn [tree_ok]. revert F. apply Forall_impl. unfold c_MaxSymbol. intros c. lia. Qed.

Ltac small := unfold c_MaxSymbol; cbn [In regex_special class_special]; lia.

Lemma block_ok : Forall (def_ok no_names no_names no_category no_defs) block.
Proof.
  repeat (apply Forall_cons); [..|apply Forall_nil]; (split; [intros _|cbn; lia]); cbn [ld_insensitive ld_tree].
  - split; [|reflexivity]. cbn [well_formed_in letters]. split; [|split; discriminate].
    split; [|split; [discriminate|exists 97; exists (Between (Raw 97) (Raw 122)); cbn; split; [auto|lia]]]. constructor; [|constructor].
    split; [split; small|]. split; [split; small|cbn; lia].
  - apply literal_ok. repeat constructor; lia.
  - split; [|reflexivity]. cbn [well_formed_in]. apply (chr_ok 2); small.
  - apply literal_ok. repeat constructor; lia.
  - apply literal_ok. repeat constructor; lia.
Qed.

Definition block_n : ndfa language_action := Eval vm_compute in
  match stage_ndfa no_names no_names no_category no_defs none_used 20 (map def_item block) with Some n => n | None => ndfa_new end.
Definition block_d : ndfa language_action := Eval vm_compute in
  match stage_dfa no_names no_names no_category no_defs none_used 20 20 (map def_item block) with Some d => d | None => ndfa_new end.
Definition block_r : ndfa language_action := Eval vm_compute in
  match stage_reduce true true 20 block_d with Some r => r | None => ndfa_new end.

(** "if  ##x!IF#" *)
Definition block_text : list Z := [105; 102; 32; 32; 35; 35; 120; 33; 73; 70; 35].

Example C62_nontrivial :
  Forall (def_ok no_names no_names no_category no_defs) block /\
  stage_ndfa no_names no_names no_category no_defs none_used 20 (map def_item block) = Some block_n /\ all_compatible (n_symbols block_n) /\
  stage_dfa no_names no_names no_category no_defs none_used 20 20 (map def_item block) = Some block_d /\
  (exists f, first_accepting block_d [0%nat] f /\
     forall p, (p < count_states block_d)%nat -> p <> 0%nat -> ~ accepting block_d p -> told_apart block_d [0%nat] f p) /\
  stage_reduce true true 20 block_d = Some block_r /\
  no_block_after_range (n_symbols block_r) /\ fits Kchar (n_symbols block_r) /\
  option_map (fun x => map (fun l => (lx_content l, lx_matched l)) (fst x))
    (read_all (compact_run Kchar block_r (n_states block_r)) (accept_at (accept_table la_less la_symbol block_r)) 0 20 (fun _ => None) (stream_new 0 block_text) []) =
  Some [([105; 102], 1); ([32; 32], 2); ([35; 35], 2); ([120], 0); ([33], 3); ([73; 70], 1); ([35], -1)].
Proof.
  assert (AL : forall i r, In r (sm_get (n_symbols block_r) i) -> hi r < 256 /\ 0 <= lo r < 256).
  { intros i r H. unfold sm_get in H. destruct ((i <? 0) || (Z.of_nat (length (sm_sets (n_symbols block_r))) <=? i)); [destruct H|].
    assert (FA : forallb (fun s => forallb (fun r => (hi r <? 256) && ((0 <=? lo r) && (lo r <? 256))) s) (sm_sets (n_symbols block_r)) = true) by (vm_compute; reflexivity).
    destruct (Nat.lt_ge_cases (Z.to_nat i) (length (sm_sets (n_symbols block_r)))) as [L|L]; [|rewrite nth_overflow in H by exact L; destruct H].
    rewrite forallb_forall in FA. specialize (FA _ (nth_In _ [] L)). rewrite forallb_forall in FA. specialize (FA r H). apply andb_prop in FA as (F1 & F2).
    apply andb_prop in F2 as (F2 & F3). apply Z.ltb_lt in F1, F3. apply Z.leb_le in F2. auto. }
  assert (SF : silent_free block_d = true) by (vm_compute; reflexivity).
  split; [exact block_ok|]. split; [vm_compute; reflexivity|]. split; [apply all_compatible_b_sound; vm_compute; reflexivity|]. split; [vm_compute; reflexivity|].
  split; [|split; [vm_compute; reflexivity|split; [|split; [|vm_compute; reflexivity]]]].
  - exists 1%nat. split.
    + split; [vm_compute; lia|]. split; [intros [X|[]]; discriminate|]. split; [vm_compute; discriminate|]. intros q Q N. destruct q; [|lia]. destruct N. left. reflexivity.
    + intros p P N A. exists [97]. left. split; [exists 1%nat; apply (reach_spec block_d SF); vm_compute; auto|]. intros (q & X). apply (reach_spec block_d SF) in X.
      change (count_states block_d) with 10%nat in P. unfold accepting in A.
      destruct p as [|[|[|[|[|[|[|[|[|[|p]]]]]]]]]]; try lia; try (vm_compute in X; exact X); apply A; vm_compute; discriminate.
  - intros i j r r' H1 H2 _ (z & D). destruct (AL j r' H2). lia.
  - intros _ i r H. apply (AL i r H).
Qed.

(** C62 is false as stated: with the default options, the lexer for the tokens (a|b)c and b does
    not recognise "b".  Compaction takes the state behind "a", which accepts nothing, and the state
    behind "b" for the same. *)
Definition lost : list lex_def := [mkDef (TRegex (RCat (RGroup (ROr (chr 97) (chr 98))) (chr 99))) false 0 3 false; mkDef (TLiteral [98]) false 1 3 false].
Lemma lost_ok : Forall (def_ok no_names no_names no_category no_defs) lost.
Proof.
  repeat (apply Forall_cons); [..|apply Forall_nil]; (split; [intros _|cbn; lia]); cbn [ld_insensitive ld_tree].
  - split; [|reflexivity]. change (well_formed_in no_names no_names no_category no_defs false low up case_safe false) with (well_formed no_names no_names no_category no_defs false false low up case_safe).
    cbn [well_formed_in]. split; [lia|]. split; [split; [lia|split]|]; apply chr_ok; small.
  - apply literal_ok. repeat constructor; lia.
Qed.
Definition lost_d : ndfa language_action := Eval vm_compute in
  match stage_dfa no_names no_names no_category no_defs none_used 20 20 (map def_item lost) with Some d => d | None => ndfa_new end.
Definition lost_r : ndfa language_action := Eval vm_compute in match stage_reduce true true 20 lost_d with Some r => r | None => ndfa_new end.

Lemma lost_words : block_words none_used lost [98] (mkLA 1 3 false) /\ forall a, block_words none_used lost [98] a -> a = mkLA 1 3 false.
Proof.
  split.
  - exists (mkDef (TLiteral [98]) false 1 3 false). split; [right; left; reflexivity|]. split; [discriminate|]. split; [|reflexivity].
    cbn [tree_matches l_word ld_tree ld_insensitive]. exists [98], []. split; [reflexivity|]. split; [|reflexivity]. exists 98. split; [exists 98; split; [reflexivity|left; reflexivity]|reflexivity].
  - intros a (i & [<-|[<-|[]]] & _ & M & ->); [|reflexivity]. exfalso. cbn [ld_tree ld_insensitive tree_matches matches chr] in M.
    destruct M as (u & v & E & U & V). destruct V as (x & _ & ->). assert (LU : length u = 1%nat) by (destruct U as [(y & _ & ->)|(y & _ & ->)]; reflexivity).
    apply (f_equal (@length Z)) in E. rewrite app_length, LU in E. discriminate E.
Qed.

Theorem C62_compaction_refuted : exists (defs : list lex_def) d r,
  Forall (def_ok no_names no_names no_category no_defs) defs /\
  stage_dfa no_names no_names no_category no_defs none_used 20 20 (map def_item defs) = Some d /\ stage_reduce true true 20 d = Some r /\
  cuts none_used defs [98] [98] 1 /\
  exists st, read_all (compact_run Kchar r (n_states r)) (accept_at (accept_table la_less la_symbol r)) 0 20 (fun _ => None) (stream_new 0 [98]) [] = st /\
    option_map (fun x => map (fun l => (lx_content l, lx_matched l)) (fst x)) st = Some [([98], -1)].
Proof.
  exists lost, lost_d, lost_r. split; [exact lost_ok|]. split; [vm_compute; reflexivity|]. split; [vm_compute; reflexivity|]. split.
  - destruct lost_words as (W1 & W2). split; [exists []; reflexivity|]. left. split; [discriminate|]. split.
    + exists (mkLA 1 3 false). split; [exact W1|]. split; [reflexivity|]. intros b B. rewrite (W2 b B). apply not_better_refl.
    + intros p' rest' b E _ _. apply (f_equal (@length Z)) in E. rewrite app_length in E. cbn [length] in *. lia.
  - eexists. split; [reflexivity|]. vm_compute. reflexivity.
Qed.
Print Assumptions C62_compaction_refuted.

(** ** C63.  The warnings: in order, exactly the terminals that are not ignored and that no word
    can get.  The details of a warning name symbols to which a definition of the terminal loses on
    some word, and there are some exactly if the terminal matches any word at all. *)
Theorem C63_warnings_partial (expressions literals : list Z -> option (list Z)) (category : list Z -> option symbol_set)
  (defined : list Z -> list (bool * bool * token)) (used : Z -> bool) (defs : list lex_def) fuel dfuel n d (terminals : nat) (ignored : Z -> bool) :
  Forall (def_ok expressions literals category defined) defs ->
  stage_ndfa expressions literals category defined used fuel (map def_item defs) = Some n -> all_compatible (n_symbols n) ->
  stage_dfa expressions literals category defined used fuel dfuel (map def_item defs) = Some d ->
  let ws := stage_warnings terminals ignored d in
  StronglySorted Z.lt (map fst ws) /\
  (forall t, In t (map fst ws) <-> 0 <= t < Z.of_nat terminals /\ ignored t = false /\ forall w, ~ generates used defs w t) /\
  (forall t ds s, In (t, ds) ws -> In s ds -> exists w a, la_symbol a = t /\ loses used defs w a s) /\
  (forall t ds, In (t, ds) ws -> ds <> [] <-> exists w a, block_words used defs w a /\ la_symbol a = t).
Proof.
  intros F E AC ED ws. destruct (stage_dfa_words expressions literals category defined used defs fuel dfuel n d F E AC ED) as (_ & _ & _ & DT & _ & W & R).
  destruct (stage_warnings_lemma used defs terminals ignored d DT W R) as (S1 & S2 & _ & S4 & S5). fold ws in S1, S2, S4, S5.
  split; [exact S1|]. split; [exact S2|]. split; [exact S4|]. intros t ds I. split.
  - intros N. destruct ds as [|s ds]; [congruence|]. destruct (S4 t (s :: ds) s I (or_introl eq_refl)) as (w & a & A1 & A2 & _). exists w, a. auto.
  - intros (w & a & B & ES). exact (S5 t ds w a I B ES).
Qed.
Print Assumptions C63_warnings_partial.

(** In this block symbol 1 loses to the keyword 0, and symbol 3 has no definition; 2 is ignored. *)
Definition beaten : list lex_def :=
  [mkDef (TLiteral [105; 102]) false 1 3 false; mkDef (TLiteral [105; 102]) false 0 2 false; mkDef (TLiteral [32]) false 2 4 false].
Example C63_nontrivial :
  Forall (def_ok no_names no_names no_category no_defs) beaten /\
  match stage_ndfa no_names no_names no_category no_defs none_used 20 (map def_item beaten) with
  | Some n => all_compatible_b [] (visit_order (n_symbols n)) = true
  | None => False
  end /\
  match stage_dfa no_names no_names no_category no_defs none_used 20 20 (map def_item beaten) with
  | Some d => stage_warnings 4 (fun t => t =? 2) d = [(1, [0]); (3, [])]
  | None => False
  end.
Proof.
  split; [|split; vm_compute; reflexivity].
  repeat (apply Forall_cons); [..|apply Forall_nil]; (split; [intros _|cbn; lia]); cbn [ld_insensitive ld_tree]; apply literal_ok; repeat constructor; lia.
Qed.

(** The warnings are not complete: a terminal that matches only the empty word is not reported,
    although no lexeme can have it. *)
Definition nothing : list lex_def := [mkDef (TLiteral []) false 0 3 false; mkDef (TLiteral [97]) false 1 3 false].
Theorem C63_empty_word_refuted : exists (defs : list lex_def) d,
  Forall (def_ok no_names no_names no_category no_defs) defs /\
  stage_dfa no_names no_names no_category no_defs none_used 20 20 (map def_item defs) = Some d /\
  stage_warnings 2 (fun _ => false) d = [] /\ forall text p, ~ cuts none_used defs text p 0.
Proof.
  exists nothing. destruct (stage_dfa no_names no_names no_category no_defs none_used 20 20 (map def_item nothing)) as [d|] eqn:E; [|vm_compute in E; discriminate E].
  exists d. vm_compute in E. injection E as <-. split; [|split; [reflexivity|split; [vm_compute; reflexivity|]]].
  - repeat (apply Forall_cons); [..|apply Forall_nil]; (split; [intros _|cbn; lia]); cbn [ld_insensitive ld_tree]; apply literal_ok; repeat constructor; lia.
  - intros text p (_ & [(NE & (a & (i & [<-|[<-|[]]] & _ & M & ->) & S & _) & _)|(_ & A & _)]); [|discriminate S|discriminate A]. apply NE. exact M.
Qed.
Print Assumptions C63_empty_word_refuted.

(** Nor do they see what compaction loses: no word but "b" has symbol 1 in the block of
    [C62_compaction_refuted], and there is no warning. *)
Theorem C63_compaction_refuted : exists (defs : list lex_def) d r,
  Forall (def_ok no_names no_names no_category no_defs) defs /\
  stage_dfa no_names no_names no_category no_defs none_used 20 20 (map def_item defs) = Some d /\ stage_reduce true true 20 d = Some r /\
  stage_warnings 2 (fun _ => false) d = [] /\ forall w, ~ accepts r 0 w (mkLA 1 3 false).
Proof.
  exists lost, lost_d, lost_r. split; [exact lost_ok|]. split; [vm_compute; reflexivity|]. split; [vm_compute; reflexivity|]. split; [vm_compute; reflexivity|].
  intros w (q & _ & I). destruct q as [|[|[|q]]]; vm_compute in I; try exact I; destruct I as [I|[]]; discriminate I.
Qed.
Print Assumptions C63_compaction_refuted.

(** A warning may say that a symbol clashes with itself. *)
Definition twice : list lex_def := [mkDef (TLiteral [97]) false 1 3 false; mkDef (TRegex (chr 97)) false 1 3 false; mkDef (TLiteral [97]) false 0 3 false].
Theorem C63_self_clash_refuted : exists (defs : list lex_def) d,
  Forall (def_ok no_names no_names no_category no_defs) defs /\
  stage_dfa no_names no_names no_category no_defs none_used 20 20 (map def_item defs) = Some d /\
  stage_warnings 2 (fun _ => false) d = [(1, [0; 1])].
Proof.
  exists twice. destruct (stage_dfa no_names no_names no_category no_defs none_used 20 20 (map def_item twice)) as [d|] eqn:E; [|vm_compute in E; discriminate E].
  exists d. vm_compute in E. injection E as <-. split; [|split; [reflexivity|vm_compute; reflexivity]].
  repeat (apply Forall_cons); [..|apply Forall_nil]; (split; [intros _|cbn; lia]); cbn [ld_insensitive ld_tree].
  - apply literal_ok; repeat constructor; lia.
  - split; [|reflexivity]. apply (chr_ok 0); small.
  - apply literal_ok; repeat constructor; lia.
Qed.
Print Assumptions C63_self_clash_refuted.
