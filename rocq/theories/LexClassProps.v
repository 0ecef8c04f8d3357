(** C91: the class dfa::lexer as those who use it see it. *)
From Verif Require Import Base OrdMap SymbolSetModel SymbolSetSpec SymbolMapModel SymbolMapSpec DedupProofs NdfaModel NdfaSpec SymbolTableModel SymbolTableSpec StateMachineModel StateMachineSpec
  TextModel TextSpec LexerModel LexerSpec LexerProofs RegexModel RegexSpec LexClassModel LexClassSpec LexClassProofs.
Local Open Scope Z_scope.

(** Whatever is asked of a new lexer, in any order: each text is cut by the expressions added
    before the first compilation or the first text, at every place into the longest match, with the
    lowest symbol; later expressions change nothing; [verify] says yes until then and no
    afterwards.  Missing from the full property: expressions that C11 excludes, or with sets of
    characters that cannot be made disjoint or looked up; characters beyond 16 bits. *)
Theorem C91_history_partial (expressions literals : list Z -> option (list Z)) (category : list Z -> option symbol_set)
  (defined : list Z -> list (bool * bool * token)) (sort : list transition -> list transition) fuel dfuel (qs : list request) answers :
  (forall st, compact_fill st (sort st)) ->
  Forall (proper expressions literals category defined) qs ->
  (forall n, usable expressions literals category defined fuel (firstn n (in_force qs))) ->
  calls_of expressions literals category defined sort fuel dfuel lexer_new (map asked qs) = Some answers ->
  length answers = length qs /\
  forall before q after as1 a as2, qs = before ++ q :: after -> answers = as1 ++ a :: as2 -> length as1 = length before -> told before q a.
Proof.
  intros SORT P US E. exact (history_lemma expressions literals category defined sort SORT fuel dfuel qs [] lexer_new answers P
    (rules_of_proper expressions literals category defined qs P) US (new_holds expressions literals category defined fuel) E).
Qed.
Print Assumptions C91_history_partial.

(** And every request is answered: nothing is read or written outside a table, and nothing loops. *)
Theorem C91_answered_partial (expressions literals : list Z -> option (list Z)) (category : list Z -> option symbol_set)
  (defined : list Z -> list (bool * bool * token)) (sort : list transition -> list transition) (qs : list request) :
  (forall st, compact_fill st (sort st)) ->
  Forall (proper expressions literals category defined) qs ->
  exists fuel0, forall fuel, (fuel0 <= fuel)%nat ->
    (forall n, usable expressions literals category defined fuel (firstn n (in_force qs))) ->
    exists dfuel0 answers, forall dfuel, (dfuel0 <= dfuel)%nat ->
      calls_of expressions literals category defined sort fuel dfuel lexer_new (map asked qs) = Some answers.
Proof.
  intros SORT P. pose proof (rules_of_proper expressions literals category defined qs P) as F. destruct (rules_exist expressions literals category defined (in_force qs) F) as (d & k & E & _).
  exists k. intros fuel L US. exact (history_runs expressions literals category defined sort SORT fuel qs [] lexer_new d P F US (E fuel L) (new_holds expressions literals category defined fuel)).
Qed.
Print Assumptions C91_answered_partial.

(** A lexer made from a finished automaton, under any calls: texts are cut by the automaton,
    expressions are ignored, and [verify] says no. *)
Theorem C91_given (expressions literals : list Z -> option (list Z)) (category : list Z -> option symbol_set)
  (defined : list Z -> list (bool * bool * token)) (sort : list transition -> list transition) fuel dfuel (d : ndfa Z) :
  ndfa_ok d -> disjoint_symbols d -> deterministic d -> (0 < count_states d)%nat -> no_block_after_range (n_symbols d) -> (forall w s, accepts d 0 w s -> 0 <= s) ->
  exists l, lexer_of_dfa sort d = Some l /\
    forall cs, Forall (fun c => match c with Stream input => forall x, In x input -> 0 <= x < 65536 | _ => True end) cs ->
      exists answers, calls_of expressions literals category defined sort fuel dfuel l cs = Some answers /\
        Forall2 (fun c a => match c, a with
          | AddSymbol _ _, Done | Compile _, Done => True
          | Stream input, Lexemes ls => contents ls = input /\
              forall ls1 l ls2, ls = ls1 ++ l :: ls2 -> munch action_less (fun s => s) (accepts d 0) (contents (l :: ls2)) (lx_content l) (lx_matched l)
          | Verify, Verified ok => ok = false
          | _, _ => False
          end) cs answers.
Proof. exact (given_lemma expressions literals category defined sort fuel dfuel d). Qed.
Print Assumptions C91_given.

(** The character lexer: every character is a lexeme whose symbol is the character, at the
    position where it stands (the offset as in C17). *)
Theorem C91_characters (input : list Z) : ~ In end_of_input input ->
  let ls := char_lexemes tracker_new input in
  map lx_content ls = map (fun c => [c]) input /\ map lx_matched ls = input /\
  forall ls1 l ls2, ls = ls1 ++ l :: ls2 ->
    p_line (lx_pos l) = Z.of_nat (line_of (contents ls1)) /\ p_column (lx_pos l) = Z.of_nat (column_of (contents ls1)) /\
    p_offset (lx_pos l) = Z.of_nat (counted_of (contents ls1)).
Proof.
  intros N ls. destruct (char_lexemes_spec input tracker_new N) as (H1 & H2 & H3). split; [exact H1|]. split; [exact H2|].
  intros ls1 l ls2 E. rewrite (H3 ls1 l ls2 E), position_new. auto.
Qed.
Print Assumptions C91_characters.

(** *** A concrete lexer: [0-9], [a-z]+ and "if", and a blank that comes too late *)
Definition no_names : list Z -> option (list Z) := fun _ => None.
Definition no_category : list Z -> option symbol_set := fun _ => None.
Definition no_defs : list Z -> list (bool * bool * token) := fun _ => [].
Definition chr (c : Z) : re := RAtom (AChr (Raw c)).
Definition from_to (a b : Z) : re := RAtom (AClass false [Between (Raw a) (Raw b)]).

Fixpoint put (t : transition) (l : list transition) : list transition :=
  match l with [] => [t] | x :: l => if fst x <? fst t then x :: put t l else t :: x :: l end.
Definition by_set (l : list transition) : list transition := fold_right put [] l.
Lemma put_in t l x : In x (put t l) <-> x = t \/ In x l.
Proof. induction l as [|y l IH]; cbn [put In]; [intuition|]. destruct (fst y <? fst t); cbn [In]; rewrite ?IH; intuition. Qed.
Lemma by_set_sorts l : compact_fill l (by_set l).
Proof.
  induction l as [|t l (I & L & S)]; [split; [reflexivity|]; split; [reflexivity|constructor]|]. cbn [by_set fold_right]. fold (by_set l). split; [|split].
  - intros x. rewrite put_in, I. cbn [In]. intuition.
  - cbn [length]. rewrite <- L. generalize (by_set l). clear. intros m. induction m as [|y m IH]; cbn [put length]; [reflexivity|]. destruct (fst y <? fst t); cbn [length]; lia.
  - clear I L. induction (by_set l) as [|y m IH]; cbn [put]; [repeat constructor|]. apply StronglySorted_inv in S as (S & F). destruct (Z.ltb_spec (fst y) (fst t)) as [X|X].
    + constructor; [apply IH, S|]. apply Forall_forall. intros x IX. apply put_in in IX as [->|IX]; [lia|]. rewrite Forall_forall in F. apply F, IX.
    + constructor; [constructor; assumption|]. constructor; [exact X|]. revert F. apply Forall_impl. intros x. lia.
Qed.

Lemma small_usable fuel (rules : list (re * Z)) (d u : ndfa Z) : add_tokens no_names no_names no_category no_defs fuel ndfa_new true (map (fun p => (false, Regex (text (fst p)), snd p)) rules) = Some d ->
  to_ndfa_with_unique_symbols d = Some u -> all_compatible_b [] (visit_order (n_symbols d)) = true ->
  forallb (forallb (fun r => (hi r <? 256) && (0 <=? lo r))) (sm_sets (n_symbols u)) = true -> usable no_names no_names no_category no_defs fuel rules.
Proof.
  intros E EU AC SM d' E'. assert (d' = d) as -> by congruence. split; [apply all_compatible_b_sound, AC|]. intros u' EU'. assert (u' = u) as -> by congruence.
  intros i j r r' _ H2 _ (z & D). unfold sm_get in H2. destruct ((j <? 0) || (Z.of_nat (length (sm_sets (n_symbols u))) <=? j)); [destruct H2|].
  destruct (Nat.lt_ge_cases (Z.to_nat j) (length (sm_sets (n_symbols u)))) as [L|L]; [|rewrite nth_overflow in H2 by exact L; destruct H2].
  rewrite forallb_forall in SM. specialize (SM _ (nth_In _ [] L)). rewrite forallb_forall in SM. specialize (SM r' H2). apply andb_prop in SM as (S1 & S2).
  apply Z.ltb_lt in S1. apply Z.leb_le in S2. lia.
Qed.

Lemma low_ok (P : Z -> Prop) : (forall x, P x -> x < 1000) -> chars_ok true false low up case_safe P.
Proof. intros L. split; [discriminate|]. intros _ x (y & PY & [->|(X & _)]) _ B; [|discriminate]. specialize (L y PY). lia. Qed.
Ltac small := unfold c_MaxSymbol; cbn [In regex_special class_special]; lia.
Lemma chr_fine level c : 0 <= c < 1000 -> ~ In c regex_special -> well_formed no_names no_names no_category no_defs true false low up case_safe level (chr c).
Proof. intros H1 H2. cbn [well_formed_in chr]. split; [split; [unfold c_MaxSymbol; lia|exact H2]|]. apply low_ok. cbn. intros x ->. lia. Qed.
Lemma from_to_fine level a b : 0 <= a <= b -> b < 1000 -> ~ In a class_special -> ~ In b class_special -> well_formed no_names no_names no_category no_defs true false low up case_safe level (from_to a b).
Proof.
  intros H1 H2 H3 H4. cbn [well_formed_in from_to]. split.
  - split; [constructor; [|constructor]; split; [split; [unfold c_MaxSymbol; lia|exact H3]|split; [split; [unfold c_MaxSymbol; lia|exact H4]|cbn; lia]]|]. split; [discriminate|]. exists a. exists (Between (Raw a) (Raw b)). cbn. split; [auto|lia].
  - apply low_ok. intros x (m & [<-|[]] & X). cbn in X. lia.
Qed.

Definition wanted : list request :=
  [Add (from_to 48 57) 3; Add (RPlus (from_to 97 122)) 2; Check; Add (RCat (chr 105) (chr 102)) 1;
   Read [105; 102; 105; 32; 105; 102; 57]; Add (chr 32) 0; Check; Make true; Read [105; 102; 32]].
Definition shown (a : answer) : list (list Z * Z) * bool :=
  match a with Lexemes ls => (map (fun l => (lx_content l, lx_matched l)) ls, false) | Verified ok => ([], ok) | _ => ([], false) end.

Example C91_nontrivial :
  Forall (proper no_names no_names no_category no_defs) wanted /\
  (forall n, usable no_names no_names no_category no_defs 20 (firstn n (in_force wanted))) /\
  option_map (map shown) (calls_of no_names no_names no_category no_defs by_set 20 20 lexer_new (map asked wanted)) =
  Some [([], false); ([], false); ([], true); ([], false);
        ([([105; 102; 105], 2); ([32], -1); ([105; 102], 1); ([57], 3)], false); ([], false); ([], false); ([], false); ([([105; 102], 1); ([32], -1)], false)] /\
  map lx_pos (char_lexemes tracker_new [97; 10; 98]) = [mkPos 0 0 0; mkPos 1 0 1; mkPos 2 1 0].
Proof.
  split; [|split; [|split; vm_compute; reflexivity]].
  - repeat (apply Forall_cons); [..|apply Forall_nil]; cbn [proper]; try exact Logic.I.
    + split; [|lia]. split; [|reflexivity]. apply from_to_fine; small.
    + split; [|lia]. split; [|reflexivity]. apply (from_to_fine 2); small.
    + split; [|lia]. split; [|reflexivity]. cbn [well_formed_in]. split; [lia|]. split; apply (chr_fine 1); small.
    + cbn [In]. lia.
    + split; [|lia]. split; [|reflexivity]. apply chr_fine; small.
    + cbn [In]. lia.
  - intros n. cbn [in_force wanted]. destruct n as [|[|[|n]]]; cbn [firstn]; rewrite ?firstn_nil;
      (eapply small_usable; [vm_compute; reflexivity|vm_compute; reflexivity|vm_compute; reflexivity|vm_compute; reflexivity]).
Qed.

(** The full property fails: with the expressions [a-df] and [a-cf], which C11 covers, [verify]
    says yes, and then "e", which neither matches, is read as the first symbol, and "f", which both
    match, gets no symbol. *)
Definition many (l : list member) : re := RAtom (AClass false l).
Theorem C91_verify_refuted : exists (r1 r2 : re) ls,
  text r1 = [91; 97; 45; 100; 102; 93] /\ text r2 = [91; 97; 45; 99; 102; 93] /\
  Forall (proper no_names no_names no_category no_defs) [Add r1 1; Add r2 2; Check; Read [101; 102]] /\
  calls_of no_names no_names no_category no_defs by_set 20 20 lexer_new (map asked [Add r1 1; Add r2 2; Check; Read [101; 102]]) = Some [Done; Done; Verified true; Lexemes ls] /\
  map (fun l => (lx_content l, lx_matched l)) ls = [([101], 1); ([102], -1)] /\
  ~ cut_into [(r1, 1); (r2, 2)] [101; 102] ls.
Proof.
  exists (many [Between (Raw 97) (Raw 100); One (Raw 102)]), (many [Between (Raw 97) (Raw 99); One (Raw 102)]). eexists. split; [reflexivity|]. split; [reflexivity|]. split; [|split; [vm_compute; reflexivity|split; [reflexivity|]]].
  - assert (G : forall b, In b [99; 100] -> tree_ok no_names no_names no_category no_defs true false (TRegex (many [Between (Raw 97) (Raw b); One (Raw 102)]))).
    { intros b B. split; [|reflexivity]. cbn [well_formed_in many]. cbn [In] in B. split.
      - split; [constructor; [|constructor; [|constructor]]|].
        + split; [split; small|]. split; [split; small|cbn; lia].
        + split; small.
        + split; [discriminate|]. exists 102. exists (One (Raw 102)). cbn. split; [auto|lia].
      - apply low_ok. intros x (m & [<-|[<-|[]]] & X); cbn in X; lia. }
    repeat (apply Forall_cons); [..|apply Forall_nil]; cbn [proper]; try exact Logic.I.
    + split; [|lia]. apply G. cbn; auto.
    + split; [|lia]. apply G. cbn; auto.
    + cbn [In]. lia.
  - intros (_ & X). specialize (X [_] _ [] eq_refl). cbn [lx_content lx_matched contents map concat app] in X. destruct X as (_ & [(_ & (r & I & _) & _)|(_ & _ & X)]).
    + cbn [In] in I. destruct I as [I|[I|[]]]; discriminate.
    + apply (X [102] [] 1); [reflexivity|discriminate|]. eexists. split; [left; reflexivity|]. cbn [RegexSpec.matches many]. exists 102. split; [|split; [lia|reflexivity]].
      exists 102. split; [|left; reflexivity]. exists (One (Raw 102)). cbn. auto.
Qed.
Print Assumptions C91_verify_refuted.
