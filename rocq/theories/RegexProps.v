(** C11, C12, C13: property theorems for regular expressions and literals.  The words matched
    by a regular expression are defined in RegexSpec ([matches]); [accepts d q w a] says that
    the automaton [d], started in state [q], accepts [w] with the action [a] (NdfaSpec). *)
From Verif Require Import Base SymbolSetModel SymbolSetSpec SymbolMapModel NdfaModel NdfaSpec TextModel TextSpec CaseTables
  RegexModel RegexSpec RegexProofs RegexDefsProofs RegexTokenProofs.
Local Open Scope Z_scope.

Definition no_names : list Z -> option (list Z) := fun _ => None.
Definition no_category : list Z -> option symbol_set := fun _ => None.
Definition no_defs : list Z -> list (bool * bool * token) := fun _ => [].

(** ** C11 is false as stated: the automaton for [a*b*] accepts "ba". *)
Definition chr_re (c : Z) : re := RAtom (AChr (Raw c)).
Definition as_bs : re := RCat (RStar (chr_re 97)) (RStar (chr_re 98)).
Definition as_bs_nfa : ndfa Z := Eval vm_compute in
  match add_token no_names no_names no_category no_defs 10 ndfa_new false false 0 (Regex [97; 42; 98; 42]) 5 with Some d => d | None => ndfa_new end.

Lemma chr_re_ok level c : 0 <= c < c_MaxSymbol -> ~ In c regex_special -> (level <= 2)%nat ->
  well_formed no_names no_names no_category no_defs false false low up case_safe level (chr_re c).
Proof. intros H1 H2 L. cbn [well_formed_in chr_re]. split; [exact (conj H1 H2)|]. split; discriminate. Qed.

Lemma star_letter (P : Z -> Prop) w : l_star (units false (any_case false low up P)) w -> forall x, In x w -> P x.
Proof.
  induction 1 as [|u v U S IH]; intros x X; [destruct X|]. apply in_app_or in X as [X|X]; [|apply IH, X].
  destruct U as (y & (z & Z1 & Z2) & ->). destruct X as [<-|[]]. destruct Z2 as [->|(Z2 & _)]; [exact Z1|discriminate Z2].
Qed.

Theorem C11_regex_refuted : exists (r : re) (w : list Z) (d : ndfa Z),
  well_formed no_names no_names no_category no_defs false false low up case_safe 0 r /\ text r = [97; 42; 98; 42] /\ w = [98; 97] /\
  (forall fuel, (5 <= fuel)%nat -> add_token no_names no_names no_category no_defs fuel ndfa_new false false 0 (Regex (text r)) 5 = Some d) /\
  accepts d 0 w 5 /\ ~ matches false false low up r w.
Proof.
  exists as_bs, [98; 97], as_bs_nfa. split.
  { cbn [as_bs well_formed_in]. split; [lia|]. split; apply chr_re_ok; unfold c_MaxSymbol; cbn [In regex_special]; lia. }
  split; [reflexivity|]. split; [reflexivity|]. split.
  { intros fuel L. do 5 (destruct fuel as [|fuel]; [lia|]). vm_compute. destruct fuel; reflexivity. }
  split.
  - exists 3%nat. split; [|vm_compute; auto]. apply (walk_path as_bs_nfa [0; 0; 2; 0; 0; 1; 1]%nat). vm_compute. reflexivity.
  - cbn [as_bs matches]. intros (u & v & E & U & V). destruct u as [|c u]; cbn [app] in E.
    + pose proof (star_letter (fun x => x = 98) v V 97) as X. rewrite <- E in X. specialize (X ltac:(cbn; auto)). discriminate X.
    + injection E as <- E. pose proof (star_letter (fun x => x = 97) (98 :: u) U 98 ltac:(cbn; auto)) as X. discriminate X.
Qed.
Print Assumptions C11_regex_refuted.

(** The tokens of a lexer interfere: with the tokens [x|b*] and "a", the automaton accepts "ba"
    as an "a" (so C12 is false in the presence of other tokens). *)
Definition x_bs : re := ROr (chr_re 120) (RStar (chr_re 98)).
Definition x_bs_nfa : ndfa Z := Eval vm_compute in
  match add_tokens no_names no_names no_category no_defs 10 ndfa_new false [(false, Regex (text x_bs), 1); (false, Literal [97], 2)] with Some d => d | None => ndfa_new end.

Theorem C11_tokens_refuted : exists (r : re) (w : list Z) (d : ndfa Z),
  well_formed no_names no_names no_category no_defs false false low up case_safe 0 r /\ text r = [120; 124; 98; 42] /\ w = [98; 97] /\
  (forall fuel, (5 <= fuel)%nat -> add_tokens no_names no_names no_category no_defs fuel ndfa_new false [(false, Regex (text r), 1); (false, Literal [97], 2)] = Some d) /\
  accepts d 0 w 2 /\ ~ l_word false false low up [97] w.
Proof.
  exists x_bs, [98; 97], x_bs_nfa. split.
  { cbn [x_bs well_formed_in]. split; [lia|]. split; apply chr_re_ok; unfold c_MaxSymbol; cbn [In regex_special]; lia. }
  split; [reflexivity|]. split; [reflexivity|]. split.
  { intros fuel L. do 5 (destruct fuel as [|fuel]; [lia|]). vm_compute. destruct fuel; reflexivity. }
  split.
  - exists 5%nat. split; [|vm_compute; auto]. apply (walk_path x_bs_nfa [2; 0; 3]%nat). vm_compute. reflexivity.
  - intros (u & v & E & (x & (y & -> & S) & ->) & _). injection E as E _. destruct S as [S|(S & _)]; [subst x; discriminate S|discriminate S].
Qed.
Print Assumptions C11_tokens_refuted.

(** Alternatives outside brackets work in state 0 only: added to state 1 of an automaton with
    the transition 0 -x-> 1, the expression [a|b] makes it accept "b" from state 0. *)
Definition two_d : ndfa Z := Eval vm_compute in build [OpState; OpTrans 0 [mkR 120 121] 1].
Definition a_or_b : re := ROr (chr_re 97) (chr_re 98).
Definition init_or_nfa : ndfa Z := Eval vm_compute in
  match add_token no_names no_names no_category no_defs 10 two_d false false 1 (Regex (text a_or_b)) 5 with Some d => d | None => ndfa_new end.

Theorem C11_initial_state_refuted : exists (r : re) (d d' : ndfa Z) (w : list Z),
  well_formed no_names no_names no_category no_defs false false low up case_safe 0 r /\ safe_whole r = true /\ d = build [OpState; OpTrans 0 [mkR 120 121] 1] /\
  (forall fuel, (10 <= fuel)%nat -> add_token no_names no_names no_category no_defs fuel d false false 1 (Regex (text r)) 5 = Some d') /\
  accepts d' 0 w 5 /\ ~ accepts d 0 w 5 /\ ~ exists u v, w = u ++ v /\ path d 0 u 1 /\ matches false false low up r v.
Proof.
  exists a_or_b, two_d, init_or_nfa, [98]. split.
  { cbn [a_or_b well_formed_in]. split; [lia|]. split; apply chr_re_ok; unfold c_MaxSymbol; cbn [In regex_special]; lia. }
  split; [reflexivity|]. split; [vm_compute; reflexivity|]. split.
  { intros fuel L. do 10 (destruct fuel as [|fuel]; [lia|]). vm_compute. destruct fuel; reflexivity. }
  split; [|split].
  - exists 4%nat. split; [|vm_compute; auto]. apply (walk_path init_or_nfa [1; 0]%nat). vm_compute. reflexivity.
  - apply (rejects two_d [98] [0%nat] [[]]); vm_compute; reflexivity.
  - intros (u & v & E & P & _). destruct u as [|c u]; cbn [app] in E.
    + pose proof (bounds_spec two_d _ _ _ P [0%nat] [] (or_introl eq_refl) ltac:(vm_compute; reflexivity)) as X. destruct X as [X|[]]. discriminate X.
    + injection E as <- E. destruct u; [|discriminate E].
      pose proof (bounds_spec two_d _ _ _ P [0%nat] [[]] (or_introl eq_refl) ltac:(vm_compute; reflexivity)) as X. destruct X.
Qed.
Print Assumptions C11_initial_state_refuted.

(** C11, the part that holds.  The regular expression [r] (its text is [text r]) with the action
    [a] is added to the state [init] of any automaton whose accepting states exist.  Started in
    an old state, the automaton then accepts exactly what it accepted before, and, with [a],
    the words of [r] behind whatever leads to [init].  Missing from the full property:
    expressions that are not [safe_whole] (a repetition directly behind a repetition, or at the
    beginning or end of a repeated part or of an alternative), alternatives outside brackets
    if [init] is not 0, and character classes that are not [chars_ok] (C13, C20).  Names may be defined in the maps of the compiler itself ([expressions],
    [literals]) or, for lexers, by any number of definitions with case options of their own
    ([defined]), or name categories of characters ([category]; C84 has the real ones). *)
Theorem C11_regex_partial (A : Type) (expressions literals : list Z -> option (list Z)) (category : list Z -> option symbol_set)
  (defined : list Z -> list (bool * bool * token)) (surr nocase : bool) (r : re) (a : A) (d : ndfa A) (init : nat) :
  ndfa_ok d -> accept_in_range d -> (init < count_states d)%nat ->
  well_formed expressions literals category defined surr nocase low up case_safe 0 r -> safe_whole r = true ->
  init = 0%nat \/ is_or r = false ->
  exists d' fuel0, (forall fuel, (fuel0 <= fuel)%nat ->
      add_token expressions literals category defined fuel d surr nocase init (Regex (text r)) a = Some d') /\
    ndfa_ok d' /\ accept_in_range d' /\ (count_states d <= count_states d')%nat /\
    forall q w x, (q < count_states d)%nat ->
      accepts d' q w x <->
      accepts d q w x \/ (x = a /\ exists u v, w = u ++ v /\ path d q u init /\ matches surr nocase low up r v).
Proof.
  intros OK R LI W S TOP.
  destruct (token_lemma expressions literals category defined surr nocase (TRegex r) a d init OK R LI (conj W S) TOP) as (d' & k & E & OK' & R' & LC & _ & AC).
  exists d', k. auto.
Qed.
Print Assumptions C11_regex_partial.

(** A whole set of tokens, as a lexer is defined: the automaton accepts a word with an action
    if and only if a token with that action matches it. *)
Theorem C11_tokens_partial (A : Type) (expressions literals : list Z -> option (list Z)) (category : list Z -> option symbol_set)
  (defined : list Z -> list (bool * bool * token)) (surr : bool) (ts : list (bool * tree * A)) :
  Forall (fun t => tree_ok expressions literals category defined surr (fst (fst t)) (snd (fst t))) ts ->
  exists d fuel0, (forall fuel, (fuel0 <= fuel)%nat ->
      add_tokens expressions literals category defined fuel ndfa_new surr (map (fun t => (fst (fst t), tree_text (snd (fst t)), snd t)) ts) = Some d) /\
    ndfa_ok d /\ forall w x, accepts d 0 w x <-> exists nocase t, In (nocase, t, x) ts /\ tree_matches surr nocase t w.
Proof. exact (lexer_tokens_lemma expressions literals category defined surr ts). Qed.
Print Assumptions C11_tokens_partial.

(** [(a|bc)+[0-9x]?] and the keyword "if", with {d} for a digit *)
Definition digits_name : list Z -> option (list Z) := fun n => if list_eq_dec Z.eq_dec n [100] then Some [91; 48; 45; 57; 93] else None.
Definition digit_class : atom := AClass false [Between (Raw 48) (Raw 57)].
Definition sample : re :=
  RCat (RPlus (RGroup (ROr (chr_re 97) (RCat (chr_re 98) (chr_re 99))))) (ROpt (RName [100] (RAtom digit_class))).
Example C11_nontrivial :
  text sample = [40; 97; 124; 98; 99; 41; 43; 123; 100; 125; 63] /\
  Forall (fun t => tree_ok digits_name no_names no_category no_defs false true (fst t)) [(TRegex (RAtom (AClass false [Between (Raw 48) (Raw 57); One (Control 110)])), 1); (TLiteral [105; 102], 2)] /\
  Forall (fun t => tree_ok digits_name no_names no_category no_defs false false (fst t)) [(TRegex sample, 1); (TLiteral [105; 102], 2)] /\
  matches false false low up sample [98; 99; 97; 55] /\
  add_tokens digits_name no_names no_category no_defs 20 ndfa_new false [(false, Regex (text sample), 1); (true, Literal [105; 102], 2)] <> None.
Proof.
  assert (R : forall sp c, In c [97; 98; 99; 48; 57] -> sp = regex_special \/ sp = class_special -> chr_ok sp (Raw c)).
  { intros sp c IC IS. split; [unfold c_MaxSymbol; cbn [In] in IC; lia|]. cbn [In] in IC. destruct IS as [ -> | -> ]; cbn [In regex_special class_special]; lia. }
  split; [reflexivity|]. split; [|split; [|split; [|vm_compute; discriminate]]].
  - constructor; [|constructor; [|constructor]]; cbn [fst tree_ok].
    + split; [|reflexivity]. cbn [well_formed_in]. split; [|split; [intros _|discriminate]].
      * split; [|split; [discriminate|exists 48; exists (Between (Raw 48) (Raw 57)); cbn; split; [auto|lia]]]. constructor; [|constructor; [|constructor]].
        -- split; [apply R; cbn; auto 10|]. split; [apply R; cbn; auto 10|cbn; lia].
        -- cbn. auto.
      * intros e x IE B NP AP.
        assert (T : forallb (fun e => (e_upper e <=? 10) || (58 <=? e_lower e))%bool (lowercase_map ++ uppercase_map) = true) by (vm_compute; reflexivity).
        rewrite forallb_forall in T. specialize (T e IE). rewrite Bool.orb_true_iff, !Z.leb_le in T.
        assert (M : forall z, atom_has (AClass false [Between (Raw 48) (Raw 57); One (Control 110)]) z -> 10 <= z < 58).
        { intros z (m & [<-|[<-|[]]] & H); cbn in H; lia. }
        pose proof (M x (AP x ltac:(lia))). lia.
    + repeat constructor; unfold c_MaxSymbol; lia.
  - constructor; [|constructor; [|constructor]]; cbn [fst tree_ok].
    + split; [|reflexivity]. cbn [sample well_formed_in].
      assert (L : forall l c, In c [97; 98; 99] -> well_formed digits_name no_names no_category no_defs false false low up case_safe l (chr_re c)).
      { intros l c IC. cbn [well_formed_in chr_re]. split; [apply R; [cbn [In] in *; tauto|auto]|split; discriminate]. }
      split; [lia|]. split.
      * split; [lia|]. split; [apply L; cbn; auto|]. cbn [well_formed_in]. split; [lia|]. split; apply L; cbn; auto.
      * split; [cbn; lia|]. split; [reflexivity|]. split; [reflexivity|]. split; [|split; discriminate]. split; [|split; [discriminate|exists 48; exists (Between (Raw 48) (Raw 57)); cbn; split; [auto|lia]]].
        constructor; [|constructor]. split; [apply R; cbn; auto 10|]. split; [apply R; cbn; auto 10|cbn; lia].
    + repeat constructor; unfold c_MaxSymbol; lia.
  - assert (O : forall (P : Z -> Prop) x, P x -> units false (any_case false low up P) [x]) by (intros P x H; exists x; split; [exists x; split; [exact H|left; reflexivity]|reflexivity]).
    exists [98; 99; 97], [55]. split; [reflexivity|]. split.
    + exists [98; 99], [97]. split; [reflexivity|]. split.
      * right. exists [98], [99]. split; [reflexivity|]. split; apply O; reflexivity.
      * apply (star_step _ [97] []); [left; apply O; reflexivity|constructor].
    + right. apply O. exists (Between (Raw 48) (Raw 57)). cbn. split; [auto|lia].
Qed.

(** A name with two definitions in the lexer data, one of them in any case: {w}+ with w = "if" (any
    case) or [0-9]. *)
Definition two_defs : list Z -> list (bool * bool * token) :=
  fun n => if list_eq_dec Z.eq_dec n [119] then [(true, false, Literal [105; 102]); (false, true, Regex [91; 48; 45; 57; 93])] else [].
Definition sample_defs : re := RPlus (RDefs [119] (DMore true false (TLiteral [105; 102]) (DOne false true (TRegex (RAtom digit_class))))).
Example C11_definitions_nontrivial :
  text sample_defs = [123; 119; 125; 43] /\ tree_ok no_names no_names no_category two_defs false false (TRegex sample_defs) /\
  tree_matches false false (TRegex sample_defs) [73; 102; 55] /\
  add_tokens no_names no_names no_category two_defs 20 ndfa_new false [(false, Regex (text sample_defs), 1)] <> None.
Proof.
  split; [reflexivity|]. split; [|split; [|vm_compute; discriminate]].
  - split; [|reflexivity]. cbn [sample_defs well_formed_in].
    split; [cbn [In]; lia|]. split; [reflexivity|]. cbn [well_formed_all well_formed_tree]. split.
    + apply Forall_forall. intros x X. split; [unfold c_MaxSymbol; cbn [In] in X; lia|]. apply RegexTokenProofs.single_chars.
    + change (item_case false false true) with false. cbn [well_formed_in digit_class]. split; [|split; discriminate].
      split; [|split; [discriminate|exists 48; exists (Between (Raw 48) (Raw 57)); cbn; split; [auto|lia]]]. constructor; [|constructor].
      split; [split; [unfold c_MaxSymbol; lia|cbn; lia]|]. split; [split; [unfold c_MaxSymbol; lia|cbn; lia]|cbn; lia].
  - assert (I : units false (any_case true low up (fun x => x = 105)) [73]) by (exists 73; split; [exists 105; split; [reflexivity|right; split; [reflexivity|vm_compute; auto]]|reflexivity]).
    assert (F : units false (any_case true low up (fun x => x = 102)) [102]) by (exists 102; split; [exists 102; split; [reflexivity|left; reflexivity]|reflexivity]).
    exists [73; 102], [55]. split; [reflexivity|]. split.
    + left. exists [73], [102]. split; [reflexivity|]. split; [exact I|]. exists [102], []. split; [reflexivity|]. split; [exact F|reflexivity].
    + apply (star_step _ [55] []); [|constructor]. right. exists 55. split; [|reflexivity]. exists 55. split; [exists (Between (Raw 48) (Raw 57)); cbn; split; [auto|lia]|left; reflexivity].
Qed.

(** The options of one definition: "insensitive" always ignores case, "sensitive" alone never does,
    and without options the case of the expression around it holds. *)
Theorem C11_case_options outer insensitive sensitive :
  item_case outer insensitive sensitive = true <-> insensitive = true \/ sensitive = false /\ outer = true.
Proof. destruct outer, insensitive, sensitive; cbn; intuition congruence. Qed.
Print Assumptions C11_case_options.

(** ** C12: a literal with the action [a], added to any state of any automaton.  The case of a
    character is that of the tables of unicode_data (C20). *)
Theorem C12_literal (A : Type) (surr nocase : bool) (word : list Z) (a : A) (d : ndfa A) (init : nat) (fuel : nat)
  (expressions literals : list Z -> option (list Z)) (category : list Z -> option symbol_set)
  (defined : list Z -> list (bool * bool * token)) :
  ndfa_ok d -> accept_in_range d -> (init < count_states d)%nat -> Forall (fun c => 0 <= c < c_MaxSymbol) word ->
  exists d', add_token expressions literals category defined fuel d surr nocase init (Literal word) a = Some d' /\
    ndfa_ok d' /\ accept_in_range d' /\ (count_states d <= count_states d')%nat /\
    forall q w x, (q < count_states d)%nat ->
      accepts d' q w x <->
      accepts d q w x \/ (x = a /\ exists u v, w = u ++ v /\ path d q u init /\ l_word surr nocase low up word v).
Proof.
  intros OK R LI W.
  destruct (token_lemma expressions literals category defined surr nocase (TLiteral word) a d init OK R LI W (or_intror eq_refl)) as (d' & k & E & OK' & R' & LC & _ & AC).
  exists d'. split; [exact (E (max k fuel) (Nat.le_max_l k fuel))|]. auto.
Qed.
Print Assumptions C12_literal.

(** Case-sensitive literals are matched by themselves only. *)
Theorem C12_exact (word w : list Z) : l_word false false low up word w <-> w = word.
Proof.
  revert w. induction word as [|c word IH]; intros w; cbn [l_word]; [reflexivity|]. split.
  - intros (u & v & -> & (x & (y & -> & [->|(X & _)]) & ->) & V); [|discriminate X]. apply IH in V. subst v. reflexivity.
  - intros ->. exists [c], word. split; [reflexivity|]. split; [exists c; split; [exists c; split; [reflexivity|left; reflexivity]|reflexivity]|apply IH; reflexivity].
Qed.
Print Assumptions C12_exact.

(** Otherwise by the words that have at each place the character, its lower or its upper case. *)
Theorem C12_case (word w : list Z) : l_word false true low up word w <-> Forall2 (fun c x => x = c \/ x = low c \/ x = up c) word w.
Proof.
  revert w. induction word as [|c word IH]; intros w; cbn [l_word].
  - split; [intros ->; constructor|intros H; inversion H; reflexivity].
  - split.
    + intros (u & v & -> & (x & (y & -> & S) & ->) & V). cbn [app]. constructor; [|apply IH, V]. destruct S as [->|(_ & S)]; [auto|exact (or_intror S)].
    + intros H. inversion H as [|? x ? v X V E1 E2]; subst. exists [x], v. split; [reflexivity|]. split; [|apply IH, V].
      exists x. split; [|reflexivity]. exists c. split; [reflexivity|]. destruct X as [->|X]; [left; reflexivity|right; auto].
Qed.
Print Assumptions C12_case.

Example C12_nontrivial : l_word false true low up [73; 102] [105; 70] /\ ~ l_word false false low up [73; 102] [105; 70].
Proof.
  split; [apply C12_case; constructor; [right; left; vm_compute; reflexivity|constructor; [right; right; vm_compute; reflexivity|constructor]]|].
  rewrite C12_exact. discriminate.
Qed.

(** ** C13 is false as stated: with surrogate support the automaton for the full stop does not
    accept U+10000, and accepts 0xdbff 0xd800, which is not the encoding of any character. *)
Definition any_nfa : ndfa Z := Eval vm_compute in
  match add_token no_names no_names no_category no_defs 10 ndfa_new true false 0 (Regex (text (RAtom AAny))) 5 with Some d => d | None => ndfa_new end.

Theorem C13_surrogates_refuted : exists d : ndfa Z,
  (forall fuel, (10 <= fuel)%nat -> add_token no_names no_names no_category no_defs fuel ndfa_new true false 0 (Regex [46]) 5 = Some d) /\
  matches true false low up (RAtom AAny) (utf16 0x10000) /\ ~ accepts d 0 (utf16 0x10000) 5 /\
  accepts d 0 [0xdbff; 0xd800] 5 /\ (forall x, utf16 x <> [0xdbff; 0xd800]).
Proof.
  exists any_nfa. split; [|split; [|split; [|split]]].
  - intros fuel L. do 10 (destruct fuel as [|fuel]; [lia|]). vm_compute. destruct fuel; reflexivity.
  - exists 0x10000. split; [exists 0x10000; split; [cbn; unfold c_MaxSymbol; lia|left; reflexivity]|split; [lia|reflexivity]].
  - apply (rejects any_nfa _ [0; 1]%nat [[2; 3]; []]%nat); vm_compute; reflexivity.
  - exists 2%nat. split; [|vm_compute; auto]. apply (walk_path any_nfa [0; 2; 0]%nat). vm_compute. reflexivity.
  - intros x. unfold utf16. destruct (x <? 0x10000); [discriminate|]. intros E. apply (f_equal (fun l => nth 1 l 0)) in E. cbn [nth] in E. pose proof (Z.mod_pos_bound (x - 0x10000) 1024 ltac:(lia)). lia.
Qed.
Print Assumptions C13_surrogates_refuted.

(** C13, the part that holds: for every set without two neighbouring characters beyond 0xffff
    whose encodings start with different units.  Missing: the sets with such characters. *)
Theorem C13_surrogates_partial (A : Type) (s : symbol_set) (d : ndfa A) (init : nat) :
  ndfa_ok d -> (init < count_states d)%nat -> normal s -> s <> [] -> unsplit (fun x => contains s x = true) ->
  let b := shift lower_case upper_case (builder_at d true false init) s in
  (count_states d <= b_cur b)%nat /\
  (forall q w, (q < count_states d)%nat -> path (b_nfa b) q w (b_cur b) <->
     exists u x, w = u ++ utf16 x /\ path d q u init /\ contains s x = true /\ x < 0x110000) /\
  (forall q q' w, (q < count_states d)%nat -> (q' < count_states d)%nat -> path (b_nfa b) q w q' <-> path d q w q').
Proof. exact (surrogates_lemma s d init). Qed.
Print Assumptions C13_surrogates_partial.

Example C13_nontrivial : normal [mkR 97 123; mkR 0x1d400 0x1d800; mkR 0x20000 0x20010] /\
  unsplit (fun x => contains [mkR 97 123; mkR 0x1d400 0x1d800; mkR 0x20000 0x20010] x = true).
Proof.
  assert (N : normal [mkR 97 123; mkR 0x1d400 0x1d800; mkR 0x20000 0x20010]) by (apply SymbolSetProofs.normal_b_sound; vm_compute; reflexivity).
  split; [exact N|]. intros x X1 X2 H1 H2 M. rewrite SymbolSetProofs.contains_spec in X1, X2 by (apply SymbolSetProofs.normal_wf, N).
  rewrite !SymbolSetProofs.mem_cons, SymbolSetProofs.mem_nil in X1, X2. unfold in_range in X1, X2. cbn [lo hi] in X1, X2.
  assert (D : x + 1 = 1024 * ((x + 1) / 1024)) by (pose proof (Z.div_mod (x + 1) 1024 ltac:(lia)); lia). lia.
Qed.
