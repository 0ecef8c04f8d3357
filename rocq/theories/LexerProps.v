(** C15-C18: property theorems for lexing. *)
From Verif Require Import Base OrdMap SymbolSetModel SymbolSetSpec SymbolSetProofs SymbolMapModel SymbolMapSpec DedupProofs.
From Verif Require Import NdfaModel NdfaSpec NdfaProofs ToDfaProofs SymbolTableModel SymbolTableSpec StateMachineModel StateMachineSpec StateMachineProofs.
From Verif Require Import LexerModel LexerSpec LexerProofs LexerDfaProofs.
Local Open Scope Z_scope.

(** C15: for every state machine and accept table, every start state, every client that
    calls [set_initial_state] between reads in whatever way, and every input without the
    end-of-input symbol: reading terminates, the lexemes are not empty and together are the
    input, and every later read gives NULL.  ([tables_ok] says that the tables have all the
    entries the machine can reach, see [C16_dfa_lexer].) *)
Theorem C15_lossless run accept first newlineState (valid : Z -> Prop) client input :
  valid first -> valid 0 -> valid newlineState -> (forall seen s, client seen = Some s -> valid s) -> (forall s, valid s -> 0 <= s) ->
  tables_ok run accept valid input -> ~ In end_of_input input ->
  exists ls st,
    (forall n, (length input < n)%nat -> read_all run accept newlineState n client (stream_new first input) [] = Some (ls, st)) /\
    contents ls = input /\ Forall (fun l => lx_content l <> []) ls /\
    (forall s, next_lexeme run accept newlineState (set_initial_state s st) = NoLexeme (set_initial_state s st)).
Proof. exact (C15_lemma run accept first newlineState valid client input). Qed.
Print Assumptions C15_lossless.

(** For streams of (signed) [char] C15 is false: a byte 253 is read as the end of the input,
    whatever the state machine, so that the text after it is cut off ... *)
Theorem C15_char_refuted run accept newlineState first bytes :
  exists st, next_lexeme run accept newlineState (stream_new first (map symbol_of_char (253 :: bytes))) = NoLexeme st /\
    ds_input st = map symbol_of_char bytes.
Proof. exact (char_cut_lemma run accept newlineState first bytes). Qed.
Print Assumptions C15_char_refuted.

(** ... but bytes other than 253 are fine. *)
Theorem C15_char_partial bytes : Forall (fun b => 0 <= b < 256) bytes -> ~ In 253 bytes -> ~ In end_of_input (map symbol_of_char bytes).
Proof. exact (char_ok_lemma bytes). Qed.
Print Assumptions C15_char_partial.

(** A machine for words and numbers, and words directly after a break: *)
Definition ex_run (q c : Z) : option Z :=
  Some (if (97 <=? c) && (c <=? 122) then (if q =? 0 then 1 else if q =? 1 then 1 else if q =? 3 then 4 else -1)
        else if (48 <=? c) && (c <=? 57) then (if q =? 0 then 2 else if q =? 2 then 2 else if q =? 4 then 5 else -1) else -1).
Definition ex_accept (q : Z) : option Z := nth_error [-1; 1; 2; -1; -1; 7] (Z.to_nat q).
Lemma ex_tables_ok text : tables_ok ex_run ex_accept (fun q => 0 <= q < 6) text.
Proof.
  intros q c Hq _. unfold ex_run. eexists. split; [reflexivity|]. intros Hr.
  assert (G : forall r, 0 <= r < 6 -> (0 <= r < 6) /\ exists a, ex_accept r = Some a).
  { intros r H. split; [exact H|]. unfold ex_accept. destruct (nth_error _ (Z.to_nat r)) eqn:E; [eauto|]. apply nth_error_None in E. cbn in E. lia. }
  apply G. split; [exact Hr|]. repeat match goal with |- context [if ?b then _ else _] => destruct b end; lia.
Qed.
Example C15_nontrivial :
  tables_ok ex_run ex_accept (fun q => 0 <= q < 6) [97; 98; 33; 13; 10; 99; 57; 56; 100] /\
  option_map fst (read_all ex_run ex_accept 3 10 (fun _ => None) (stream_new 0 [97; 98; 33; 13; 10; 99; 57; 56; 100]) []) =
  Some [mkLexeme [97; 98] (mkPos 0 0 0) 1; mkLexeme [33] (mkPos 2 0 2) (-1); mkLexeme [13] (mkPos 3 0 3) (-1); mkLexeme [10] (mkPos 3 1 0) (-1);
        mkLexeme [99; 57] (mkPos 4 1 0) 7; mkLexeme [56] (mkPos 6 1 2) 2; mkLexeme [100] (mkPos 7 1 3) 1].
Proof. split; [apply ex_tables_ok|vm_compute; reflexivity]. Qed.

(** C16: every lexeme is the longest match at its place, started in the state set by the
    client or, if there is none, in the first, newline or ordinary start state. *)
Theorem C16_maximal_munch run accept first newlineState (valid : Z -> Prop) client input n ls st :
  valid first -> valid 0 -> valid newlineState -> (forall seen s, client seen = Some s -> valid s) -> (forall s, valid s -> 0 <= s) ->
  tables_ok run accept valid input -> ~ In end_of_input input ->
  read_all run accept newlineState n client (stream_new first input) [] = Some (ls, st) ->
  forall ls1 l ls2, ls = ls1 ++ l :: ls2 ->
    longest_match run accept (start_state first newlineState client (rev ls1)) (contents (l :: ls2)) (lx_content l) (lx_matched l).
Proof. exact (C16_lemma run accept first newlineState valid client input n ls st). Qed.
Print Assumptions C16_maximal_munch.

(** The symbol of a state: the lowest one for ordinary actions, ... *)
Theorem C16_lowest_symbol symbols : symbols <> [] ->
  In (fill_accept action_less (fun s => s) symbols) symbols /\
  forall s, In s symbols -> fill_accept action_less (fun s => s) symbols <= s.
Proof. exact (base_action_lemma symbols). Qed.
Print Assumptions C16_lowest_symbol.

(** ... and for the actions of a language definition that of one to which no other is
    preferred: weak before strong, then by the kind of the unit, then by symbol. *)
Theorem C16_language_actions actions : actions <> [] ->
  exists h, In h actions /\ fill_accept la_less la_symbol actions = la_symbol h /\ forall a, In a actions -> ~ better a h.
Proof. exact (language_action_lemma actions). Qed.
Print Assumptions C16_language_actions.

(** With actions of both classes the choice depends on the order of the actions, and an
    ordinary action can win against a language action. *)
Theorem C16_mixed_actions_refuted : exists a b,
  fill_accept any_less any_symbol [a; b] <> fill_accept any_less any_symbol [b; a] /\
  any_less a b = true /\ any_less b a = true.
Proof. exact mixed_lemma. Qed.
Print Assumptions C16_mixed_actions_refuted.

(** C16 for a lexer made from a DFA, in terms of the automaton: the longest prefix that it
    accepts, with the symbol of a highest action; the tables are large enough. *)
Theorem C16_dfa_lexer {A} (less : A -> A -> bool) (symbol : A -> Z) (d : ndfa A) k step text first newlineState client n :
  ndfa_ok d -> disjoint_symbols d -> deterministic d -> action_order less ->
  machine_of k d step -> no_block_after_range (n_symbols d) -> fits k (n_symbols d) -> (forall c, In c text -> 0 <= c < kind_limit k) ->
  valid_state d first -> valid_state d newlineState -> (forall seen s, client seen = Some s -> valid_state d s) ->
  (forall seen w a, accepts d (Z.to_nat (start_state first newlineState client seen)) w a -> 0 <= symbol a) ->
  (length text < n)%nat ->
  exists ls st, read_all step (accept_at (accept_table less symbol d)) newlineState n client (stream_new first text) [] = Some (ls, st) /\
    contents ls = text /\
    forall ls1 l ls2, ls = ls1 ++ l :: ls2 -> lx_content l <> [] /\
      munch less symbol (accepts d (Z.to_nat (start_state first newlineState client (rev ls1)))) (contents (l :: ls2)) (lx_content l) (lx_matched l).
Proof. exact (C16_dfa_lemma less symbol d k step text first newlineState client n). Qed.
Print Assumptions C16_dfa_lexer.

(** C16 from the automaton the user builds: after [to_ndfa_with_unique_symbols] and [to_dfa],
    a lexer with flat or compact tables cuts the text into longest matches of the original
    automaton (words that continue an eager accept do not count).  Missing from the full
    property: the sets excluded in C04 and C05. *)
Theorem C16_pipeline_partial {A} (eager : A -> bool) (less : A -> A -> bool) (symbol : A -> Z) (ops : list (@op A)) u fuel r k step text n :
  Forall op_valid ops -> all_compatible (n_symbols (build ops)) -> action_order less ->
  (forall q a, In a (actions_for_state (build ops) q) -> 0 <= symbol a) ->
  to_ndfa_with_unique_symbols (build ops) = Some u -> to_dfa eager fuel u [0%nat] = Some r ->
  machine_of k r step -> no_block_after_range (n_symbols u) -> fits k (n_symbols u) ->
  (forall c, In c text -> 0 <= c < kind_limit k) -> (length text < n)%nat ->
  exists ls st, read_all step (accept_at (accept_table less symbol r)) 0 n (fun _ => None) (stream_new 0 text) [] = Some (ls, st) /\
    contents ls = text /\
    forall ls1 l ls2, ls = ls1 ++ l :: ls2 -> lx_content l <> [] /\
      munch less symbol (fun w a => accepts (build ops) 0 w a /\ not_cut eager (build ops) 0 w) (contents (l :: ls2)) (lx_content l) (lx_matched l).
Proof. exact (pipeline_lemma eager less symbol ops u fuel r k step text n). Qed.
Print Assumptions C16_pipeline_partial.

(** The orders of the library are orders. *)
Theorem C16_orders : action_order action_less /\ action_order la_less.
Proof. exact (conj base_order language_order). Qed.
Print Assumptions C16_orders.

(** Identifiers, the keyword "if" and "!": *)
Definition C16_ex : list (@op Z) :=
  [OpState; OpState; OpState; OpState; OpTrans 0 [mkR 97 123] 1; OpTrans 1 [mkR 97 123] 1; OpTrans 0 [mkR 105 106] 2; OpTrans 2 [mkR 102 103] 3; OpTrans 0 [mkR 33 34] 4;
   OpAccept 1 5; OpAccept 3 2; OpAccept 4 3].
Example C16_nontrivial :
  Forall op_valid C16_ex /\ all_compatible (n_symbols (build C16_ex)) /\
  match to_ndfa_with_unique_symbols (build C16_ex) with
  | Some u => match to_dfa (fun _ => false) 10 u [0%nat] with
    | Some r => option_map (fun x => map (fun l => (lx_content l, lx_matched l)) (fst x))
        (read_all (compact_run Kchar r (n_states r)) (accept_at (accept_table action_less (fun s => s) r)) 0 20 (fun _ => None)
           (stream_new 0 [105; 102; 33; 105; 102; 102; 32; 120]) [])
    | None => None end
  | None => None end = Some [([105; 102], 2); ([33], 3); ([105; 102; 102], 5); ([32], -1); ([120], 5)].
Proof.
  split; [repeat (apply Forall_cons; [try exact I; apply normal_b_sound; vm_compute; reflexivity|]); apply Forall_nil|].
  split; [apply all_compatible_b_sound; vm_compute; reflexivity|]. vm_compute. reflexivity.
Qed.

(** C17 is false as stated: the offset does not count CR (nor VT, FF, NEL, LS, PS). *)
Theorem C17_offset_refuted : exists text,
  p_offset (fst (update_position tracker_new text)) <> Z.of_nat (length text) /\
  option_map (fun x => map (fun l => (lx_content l, p_offset (lx_pos l))) (fst x))
    (read_all ex_run ex_accept 0 10 (fun _ => None) (stream_new 0 text) []) = Some [([13], 0); ([97], 0)].
Proof. exists [13; 97]. split; [vm_compute; discriminate|vm_compute; reflexivity]. Qed.
Print Assumptions C17_offset_refuted.

(** C17, the part that holds: line and column of every lexeme are exact; the offset counts
    all characters before it apart from those.  Missing from the full property: these
    characters in the offset. *)
Theorem C17_positions_partial run accept first newlineState (valid : Z -> Prop) client input n ls st :
  valid first -> valid 0 -> valid newlineState -> (forall seen s, client seen = Some s -> valid s) -> (forall s, valid s -> 0 <= s) ->
  tables_ok run accept valid input -> ~ In end_of_input input ->
  read_all run accept newlineState n client (stream_new first input) [] = Some (ls, st) ->
  forall ls1 l ls2, ls = ls1 ++ l :: ls2 ->
    p_line (lx_pos l) = Z.of_nat (line_of (contents ls1)) /\
    p_column (lx_pos l) = Z.of_nat (column_of (contents ls1)) /\
    p_offset (lx_pos l) = Z.of_nat (counted_of (contents ls1)).
Proof. exact (C17_lemma run accept first newlineState valid client input n ls st). Qed.
Print Assumptions C17_positions_partial.

(** Comparing positions: by line, then column, then offset. *)
Theorem C17_order a b :
  (pos_ltb a b = true <-> (p_line a < p_line b \/ p_line a = p_line b /\ (p_column a < p_column b \/ p_column a = p_column b /\ p_offset a < p_offset b))) /\
  (pos_eqb a b = true <-> a = b).
Proof. exact (pos_order a b). Qed.
Print Assumptions C17_order.

Example C17_nontrivial :
  let text := [97; 13; 10; 98; 10; 10; 13; 13; 8232; 99; 100] in
  line_of text = 6%nat /\ column_of text = 2%nat /\ counted_of text = 7%nat /\
  fst (update_position tracker_new text) = mkPos 7 6 2.
Proof. vm_compute. auto. Qed.

(** C18 is false as stated: reading a string through a [basic_stringreader] gives what an
    [std::istream] gives for the string without its last character, whatever the string. *)
Theorem C18_last_character_refuted (conv : Z -> Z) (s : list Z) (c : Z) (n : nat) :
  reads (stream_read (sr_get (s ++ [c])) (sr_good (s ++ [c])) conv) n 0%nat = reads (stream_read (is_get s) is_good conv) n (0%nat, false).
Proof. exact (C18_lemma conv s c n). Qed.
Print Assumptions C18_last_character_refuted.

(** What is read: all but the last character, then the end of the input for ever.  Missing
    from the full property: the last character. *)
Theorem C18_stringreader_partial (conv : Z -> Z) (s : list Z) (n : nat) :
  reads (stream_read (sr_get s) (sr_good s) conv) n 0%nat = map (fun i => nth i (map conv (removelast s)) end_of_input) (seq 0 n).
Proof. exact (stringreader_reads conv s n). Qed.
Print Assumptions C18_stringreader_partial.

(** An [std::istream] delivers all of them. *)
Theorem C18_istream (conv : Z -> Z) (s : list Z) (n : nat) :
  reads (stream_read (is_get s) is_good conv) n (0%nat, false) = map (fun i => nth i (map conv s) end_of_input) (seq 0 n).
Proof. exact (istream_reads conv s n). Qed.
Print Assumptions C18_istream.

Example C18_nontrivial :
  reads (stream_read (sr_get [97; 98; 99]) (sr_good [97; 98; 99]) symbol_of_wchar) 5 0%nat = [97; 98; -3; -3; -3] /\
  reads (stream_read (is_get [97; 98; 99]) is_good symbol_of_wchar) 5 (0%nat, false) = [97; 98; 99; -3; -3].
Proof. vm_compute. auto. Qed.
