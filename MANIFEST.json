{
 "claims": [
  {
   "property": "C01",
   "status": "proved",
   "theorems": [
    "C01_symbol_set_semantics",
    "C01_union_range_step",
    "C01_and_overflow_refuted",
    "C01_overflow_only_at_max"
   ],
   "note": "Membership after any sequence of union/exclude/and/invert operations equals the mathematical set, for non-empty ranges of non-negative symbols. Signed overflow of range(INT_MAX) is not part of the value semantics; C01_and_overflow_refuted shows that &= reaches it on ordinary sets, C01_overflow_only_at_max that nothing else does. Aliased arguments (s |= s) are not modelled."
  },
  {
   "property": "C02",
   "status": "proved",
   "theorems": [
    "C02_symbol_set_normal",
    "C02_symbol_set_eq",
    "C02_symbol_set_order",
    "C02_empty_exclusion_refuted"
   ],
   "note": "Canonical form, extensional equality and strict total order. C02_empty_exclusion_refuted shows the non-emptiness hypothesis is needed."
  },
  {
   "property": "C03",
   "status": "proved",
   "theorems": [
    "C03_symbol_map_ids",
    "C03_has_duplicates"
   ],
   "note": "All request histories."
  },
  {
   "property": "C04",
   "status": "partial",
   "theorems": [
    "C04_deduplicate_refuted",
    "C04_deduplicate_partial",
    "C04_deduplicate_single_ranges_partial",
    "C04_copy_refuted"
   ],
   "note": "Full statement refuted (C04_deduplicate_refuted): a range that meets earlier symbols and ends in a gap overshoots. Proved for every map whose ranges satisfy all_compatible, and unconditionally for maps of single ranges. C04_copy_refuted: copy construction loses the sets."
  },
  {
   "property": "C05",
   "status": "partial",
   "theorems": [
    "C05_lookup_refuted",
    "C05_lookup_order_refuted",
    "C05_lookup_alias_refuted",
    "C05_lookup_partial"
   ],
   "note": "Refuted in general (block boundary, aliasing); exact for all maps of disjoint sets without a range of 256 or more characters starting at a multiple of 256 where another ends"
  },
  {
   "property": "C06",
   "status": "partial",
   "theorems": [
    "C06_hard_coded_refuted",
    "C06_hard_coded_missing_refuted",
    "C06_hard_coded_partial",
    "C06_hard_coded_exists_partial"
   ],
   "note": "Refuted from 256 on and for allocation; exact below 256, block-wise from 256 on, always inside the table"
  },
  {
   "property": "C07",
   "status": "proved",
   "theorems": [
    "C07_build_ok",
    "C07_unique_symbols",
    "C07_unique_symbols_compatible",
    "C07_verify_no_symbol_overlap",
    "C07_unique_symbols_no_partition_refuted"
   ],
   "note": "For any automaton built through the API, whenever de-duplication gives a partition: same reachable states and actions on every word, disjoint symbol sets. A witness shows the partition condition is needed."
  },
  {
   "property": "C08",
   "status": "proved",
   "theorems": [
    "C08_to_dfa_terminates",
    "C08_to_dfa",
    "C08_build_unique_dfa"
   ],
   "note": "Termination and correctness of the subset construction for every NFA with disjoint symbol sets and valid initial states; eager accept actions cut longer words exactly."
  },
  {
   "property": "C09",
   "status": "partial",
   "theorems": [
    "C09_compact_refuted",
    "C09_compact_missing_refuted",
    "C09_compact_partial",
    "C09_compact_terminates_partial"
   ],
   "note": "The full statement is refuted twice (C09_compact_refuted: an accepting state is lumped with non-accepting ones; C09_compact_missing_refuted: states vanish). Proved for DFAs in which some non-initial state accepts and the first one is told apart from every non-accepting non-initial state by some word."
  },
  {
   "property": "C10",
   "status": "proved",
   "theorems": [
    "C10_merged_symbols"
   ],
   "note": "Same states, same paths, same actions; two characters share a merged set exactly if no state tells them apart."
  },
  {
   "property": "C11",
   "status": "partial",
   "theorems": [
    "C11_regex_refuted",
    "C11_tokens_refuted",
    "C11_initial_state_refuted",
    "C11_regex_partial",
    "C11_tokens_partial",
    "C11_case_options",
    "C11_dash_refuted",
    "C11_backwards_refuted",
    "C11_no_members_refuted",
    "C11_open_class_refuted",
    "C11_octal_refuted"
   ],
   "note": "Full statement refuted three ways: adjacent repetitions (C11_regex_refuted), interference between tokens (C11_tokens_refuted), alternatives outside brackets with an initial state other than 0 (C11_initial_state_refuted). Proved for every safe expression (safe_whole: no repetition directly beside another, at the border of a repeated part or at the beginning of an alternative) over the whole syntax: characters and escapes, classes, negation, groups, operators, named expressions and literals, names with any number of definitions in the lexer data (each with its own case option), surrogates, case conversion and unicode categories (their tables are those of C84). Texts outside the syntax that are taken without a message and mean something else: [a-]b and [z-a] accept nothing, [] and [\\] the empty word, \\8 a NUL and an 8 (C11_dash_refuted and the four after it)."
  },
  {
   "property": "C12",
   "status": "proved",
   "theorems": [
    "C12_literal",
    "C12_exact",
    "C12_case"
   ],
   "note": "add_literal for any automaton and initial state, any literal with characters in [0, c_MaxSymbol), with and without surrogates and case insensitivity. Interference from regular expressions in the same lexer is C11_tokens_refuted."
  },
  {
   "property": "C13",
   "status": "partial",
   "theorems": [
    "C13_surrogates_refuted",
    "C13_surrogates_partial"
   ],
   "note": "Refuted for sets with neighbouring characters beyond 0xffff whose encodings start with different units (C13_surrogates_refuted, the full stop); proved for all other non-empty sets."
  },
  {
   "property": "C14",
   "status": "partial",
   "theorems": [
    "C14_flat",
    "C14_compact",
    "C14_agree",
    "C14_invalid_state",
    "C14_exists",
    "C14_words_partial",
    "C14_words_refuted"
   ],
   "note": "Rows, agreement, words proved for every exact translator; with the library's own translator the part excluded in C05 is refuted (C14_words_refuted) and the rest proved (C14_words_partial)."
  },
  {
   "property": "C15",
   "status": "partial",
   "theorems": [
    "C15_lossless",
    "C15_char_refuted",
    "C15_char_partial"
   ],
   "note": "Proved for every lexer, client and symbol stream without the end-of-input symbol. Refuted for char streams containing byte 253 (C15_char_refuted), which sign extension turns into the end-of-input symbol."
  },
  {
   "property": "C16",
   "status": "partial",
   "theorems": [
    "C16_maximal_munch",
    "C16_lowest_symbol",
    "C16_language_actions",
    "C16_mixed_actions_refuted",
    "C16_dfa_lexer",
    "C16_pipeline_partial",
    "C16_orders"
   ],
   "note": "Proved for every lexer (C16_maximal_munch), for DFA lexers and for the pipeline from a user automaton, apart from the sets excluded in C04/C05. Mixed action classes refuted."
  },
  {
   "property": "C17",
   "status": "partial",
   "theorems": [
    "C17_offset_refuted",
    "C17_positions_partial",
    "C17_order"
   ],
   "note": "Line and column proved exact; the offset is refuted and its exact value proved."
  },
  {
   "property": "C18",
   "status": "partial",
   "theorems": [
    "C18_last_character_refuted",
    "C18_stringreader_partial",
    "C18_istream"
   ],
   "note": "Refuted for every non-empty string: the last character is never delivered. Exact behaviour proved."
  },
  {
   "property": "C19",
   "status": "partial",
   "theorems": [
    "C19_utf8_refuted",
    "C19_four_byte_refuted",
    "C19_ascii_partial",
    "C19_stops_partial"
   ],
   "note": "Refuted for every text with a character beyond ASCII; the exact behaviour (decoded up to the first such character, then bad) is proved for every text."
  },
  {
   "property": "C20",
   "status": "partial",
   "theorems": [
    "C20_case_refuted",
    "C20_case_partial",
    "C20_single_partial"
   ],
   "note": "Refuted for ranges starting inside a table entry and ending behind it; proved for all other sets with the project's own tables, in particular all single characters."
  },
  {
   "property": "C21",
   "status": "proved",
   "theorems": [
    "C21_contents",
    "C21_changes"
   ],
   "note": "item_set contents, changes and iteration for every history of insert, erase and merge."
  },
  {
   "property": "C22",
   "status": "partial",
   "theorems": [
    "C22_equality_refuted",
    "C22_equality_partial",
    "C22_order"
   ],
   "note": "Equality refuted for sets that differ in trailing zero words; proved for sets whose word counts agree; order law proved."
  },
  {
   "property": "C23",
   "status": "partial",
   "theorems": [
    "C23_rules",
    "C23_rules_dense",
    "C23_names_refuted",
    "C23_items_partial",
    "C23_names_partial"
   ],
   "note": "Rules proved for all histories; names and items refuted when a nonterminal number not issued by the grammar is looked up, proved otherwise."
  },
  {
   "property": "C24",
   "status": "partial",
   "theorems": [
    "C24_inverse_refuted",
    "C24_name_ends_refuted",
    "C24_fresh_partial",
    "C24_names_partial",
    "C24_split_partial"
   ],
   "note": "Refuted for names added twice and for splitting symbols not in the dictionary; proved for all histories of documented use."
  },
  {
   "property": "C25",
   "status": "partial",
   "theorems": [
    "C25_empty_refuted",
    "C25_left_recursion_refuted",
    "C25_mutual_recursion_refuted",
    "C25_ebnf_refuted",
    "C25_ends",
    "C25_stable",
    "C25_sound_partial",
    "C25_exact_partial",
    "C25_rule_exact_partial"
   ],
   "note": "Refuted for empty rules before rules that start with something nullable, nullable or mutual left recursion, and EBNF sequences; termination and stability proved for all grammars, soundness for plain EBNF, exactness for grammars without mutual left recursion."
  },
  {
   "property": "C26",
   "status": "partial",
   "theorems": [
    "C26_empty_refuted",
    "C26_repeat_refuted",
    "C26_terminal_refuted",
    "C26_ends",
    "C26_relative_partial",
    "C26_same",
    "C26_exact_partial"
   ],
   "note": "The computation ends for every grammar and gives the least solution of the FOLLOW equations for whatever FIRST sets it is given (C26_ends, C26_relative_partial, C26_same). It agrees with the textbook definition, apart from the empty item as a member, for grammars that meet the conditions of C25_exact_partial and have no repetitions (C26_exact_partial). Refuted in general: the sets contain the empty item, the end of a repeated sequence is not followed by its start, terminals have empty sets."
  },
  {
   "property": "C27",
   "status": "proved",
   "theorems": [
    "C27_contents",
    "C27_changes"
   ],
   "note": "For every sequence of insertions, every numbering of rules and every sound == of lookahead sets: one entry per LR(0) item, union of lookaheads, insertion reports exactly whether anything changed."
  },
  {
   "property": "C28",
   "status": "partial",
   "theorems": [
    "C28_generate_closure_partial",
    "C28_create_closure_partial",
    "C28_item_closure_partial",
    "C28_ends_partial",
    "C28_empty_refuted",
    "C28_eoi_refuted"
   ],
   "note": "Exact closure (items and lookaheads) for generate_closure, create_closure and the per-item closure, with the closure cache and any state of the caching flags, and termination, for grammars whose rules contain neither the empty item nor the end of input; both exceptions have counterexamples. FIRST sets are taken as given (C25); identifiers of rules as an injective function (C23)."
  },
  {
   "property": "C29",
   "status": "partial",
   "theorems": [
    "C29_known_state",
    "C29_new_state",
    "C29_unique",
    "C29_identifier",
    "C29_kept",
    "C29_transitions",
    "C29_targets",
    "C29_out_of_range",
    "C29_lookahead",
    "C29_items",
    "C29_order_refuted"
   ],
   "note": "Every history of state additions, transitions and lookahead additions. Kernels are compared as lists of items in the order of addition: C29_order_refuted shows the same items in another order make another state, so 'same kernel' is proved as same list, not as same set; adding items to a state after it has been passed to the machine is not modelled."
  },
  {
   "property": "C30",
   "status": "partial",
   "theorems": [
    "C30_exact_partial",
    "C30_all_items_partial",
    "C30_ends_partial"
   ],
   "note": "The lookaheads are exactly the LALR(1) lookaheads, and the construction ends with no access out of bounds. Missing: grammars with the empty item or the end of input inside rules; FIRST sets are taken as they are. The tables of spontaneous lookaheads used for reports are the subject of C82."
  },
  {
   "property": "C31",
   "status": "partial",
   "theorems": [
    "C31_terminals_partial",
    "C31_nonterminals_partial",
    "C31_wide_refuted"
   ],
   "note": "Every scan visits exactly the actions of the state for the symbol, in priority order, for tables with next states and rule counts that fit in 24 bits; refuted beyond that (next states are stored modulo 2^24)."
  },
  {
   "property": "C32",
   "status": "partial",
   "theorems": [
    "C32_actions",
    "C32_one",
    "C32_others",
    "C32_run_partial",
    "C32_parse_partial"
   ],
   "note": "The rewriter is exact for every action set and the effect of ignored lexemes on a parse is proved for every input. Partial: the run-time theorem is for tables without guards and ignored symbols that the grammar does not use; a symbol that is ignored but shifted somewhere is covered by C32_actions only."
  },
  {
   "property": "C33",
   "status": "partial",
   "theorems": [
    "C33_actions",
    "C33_kept",
    "C33_strong_partial",
    "C33_reduce_refuted"
   ],
   "note": "Exact for every action set and declaration. Refuted part: a state that only reduces on the weak symbol does not get the strong symbol's shift (C33_reduce_refuted). The DFA version of add_symbols is not modelled."
  },
  {
   "property": "C34",
   "status": "proved",
   "theorems": [
    "C34_actions",
    "C34_levels",
    "C34_conflict",
    "C34_others"
   ],
   "note": "For every precedence function, and for precedence blocks: exact set of actions, levels and associativity."
  },
  {
   "property": "C35",
   "status": "partial",
   "theorems": [
    "C35_actions",
    "C35_resolution",
    "C35_conflict_partial",
    "C35_others",
    "C35_several_refuted"
   ],
   "note": "Exact for every action set and attribute assignment. Refuted part: with several reduce actions [conflict=shift] and [conflict=weak reduce] do nothing (C35_several_refuted)."
  },
  {
   "property": "C36",
   "status": "partial",
   "theorems": [
    "C36_exact_partial",
    "C36_items_partial",
    "C36_rewritten_partial",
    "C36_resolved_partial",
    "C36_ends_partial",
    "C36_weak_refuted"
   ],
   "note": "Exact for actions as built and for rewriters that only resolve (ignored symbols, precedence, conflict attributes, LR(1)): what is reported is exactly the shift/reduce and reduce/reduce clashes, each once, with exactly the items that cause it. Refuted for weak symbols: a clash on a weak symbol whose actions are copied from a strong symbol is not reported. Missing: the lookahead sources listed with a reduce item are any answer of the source search; order of the report."
  },
  {
   "property": "C37",
   "status": "partial",
   "theorems": [
    "C37_rewritten_partial",
    "C37_derivation_partial",
    "C37_plain_partial"
   ],
   "note": "If the parser accepts (for any kind of lexeme and of item), the whole input has a parse tree for the language of the initial state, the item on the stack is the value of that tree, and the reported reductions are, in reverse, a rightmost derivation. For tables made from actions that are sound for a built LALR machine (this includes the builder's own actions, and leaves room for weak and ignored symbols); runs that meet undefined behaviour or do not end, and grammars with the end of input in rules, are not covered."
  },
  {
   "property": "C38",
   "status": "partial",
   "theorems": [
    "C38_rewritten_partial",
    "C38_shape_partial",
    "C38_leaves_partial",
    "C38_guard_refuted"
   ],
   "note": "Every node of the tree stands for a rule with a child for each item, and for grammars without guards the leaves are the lexemes in order (without those ignored). Refuted for grammars with guards: a guard adds a leaf for the lexeme that follows it."
  },
  {
   "property": "C39",
   "status": "partial",
   "theorems": [
    "C39_contents_partial",
    "C39_independent_partial",
    "C39_pop_partial",
    "C39_destroy_refuted",
    "C39_lost_refuted",
    "C39_modify_refuted",
    "C39_depth_refuted"
   ],
   "note": "Full for every history in which copies are destroyed in the reverse of the order they were made, with initial_depth >= 2: contents, independence, answers of pop, garbage collection and growth at any point. Refuted otherwise: destroying the original before a copy, destroying a copy out of order (the reference list is never linked backwards), modifying through operator* and initial_depth 1 or 0."
  },
  {
   "property": "C40",
   "status": "partial",
   "theorems": [
    "C40_exact_partial",
    "C40_defined_partial",
    "C40_ends_partial",
    "C40_conflict_free_partial",
    "C40_defined_refuted",
    "C40_ends_refuted"
   ],
   "note": "Exactness against the parser's own steps proved for every table without guards, diverted states and ignored symbols (weak reductions included); a true answer is always defined; it ends whenever the parser does, hence always for conflict-free parsers. The full statement is false: C40_defined_refuted (the hidden variable 'state' makes a false answer read past an array) and C40_ends_refuted (cyclic grammar). That the state is unchanged holds by construction: the modelled function returns only an answer."
  },
  {
   "property": "C41",
   "status": "partial",
   "theorems": [
    "C41_sound_partial",
    "C41_input",
    "C41_missed_refuted"
   ],
   "note": "An answer of check_guard other than -1 is the symbol of the guard, and a prefix of the input matches; using a guard takes no lexemes. Refuted: a guard that matches may be missed when its rules have a shift/reduce conflict."
  },
  {
   "property": "C42",
   "status": "partial",
   "theorems": [
    "C42_sees_partial",
    "C42_reads_once_partial",
    "C42_kept_partial",
    "C42_trimmed_partial",
    "C42_end_refuted"
   ],
   "note": "Full for every interleaving of copy, destroy, look and next over any number of states, any source (finite or endless), as long as a state only moves on over a symbol that has been read. Refuted: next at the end of the input erases beyond the lookahead (undefined). References into the lookahead vector and negative offsets are not modelled."
  },
  {
   "property": "C43",
   "status": "partial",
   "theorems": [
    "C43_ends_partial",
    "C43_decides_partial",
    "C43_cycle_refuted"
   ],
   "note": "Proved for grammars without guards whose FIRST sets are right, actions without rewriters, and no Accept/Reduce clash: for every input the parser accepts or rejects after finitely many steps and meets no undefined behaviour, and it accepts exactly the derivable inputs. C43_cycle_refuted: false in general, since 0 -> t4 | 0 has no reported conflict and the parser reduces 0 -> 0 for ever on the input t4."
  },
  {
   "property": "C44",
   "status": "partial",
   "theorems": [
    "C44_assign_refuted",
    "C44_safe_partial",
    "C44_lifetime_partial",
    "C44_once_partial",
    "C44_copy_partial",
    "C44_assign_partial"
   ],
   "note": "p = p->member (source only in reach through the target) reads freed memory: refuted; proved for all other histories, with items that refer to each other in any way"
  },
  {
   "property": "C45",
   "status": "partial",
   "theorems": [
    "C45_compare_refuted",
    "C45_always_refuted",
    "C45_compare_partial"
   ],
   "note": "<= and >= compare a container with itself and are always true: refuted; <, > and == proved"
  },
  {
   "property": "C46",
   "status": "proved",
   "theorems": [
    "C46_dequote",
    "C46_round_trip",
    "C46_unique",
    "C46_defined"
   ],
   "note": "Every quoted text is dequoted to what it stands for; undefined exactly for the empty string."
  },
  {
   "property": "C47",
   "status": "proved",
   "theorems": [
    "C47_bounds",
    "C47_position"
   ],
   "note": "The position is in bounds for any array; in every state of every built table the entries with the symbol are exactly the contiguous run at the position."
  },
  {
   "property": "C48",
   "status": "partial",
   "theorems": [
    "C48_copies_refuted",
    "C48_attributes_partial"
   ],
   "note": "setting attributes on a copied item changes the original too: refuted; proved for all histories that do not give new attributes to a copied item"
  },
  {
   "property": "C49",
   "status": "partial",
   "theorems": [
    "C49_generated_tables_refuted",
    "C49_generated_tables_partial"
   ],
   "note": "Refuted in general: every lookup in the last state with transitions, or a later one, reads outside the row pointers. Proved for all earlier states."
  },
  {
   "property": "C50",
   "status": "partial",
   "theorems": [
    "C50_order_refuted",
    "C50_order_partial"
   ],
   "note": "<= and > refuted; <, >= and == proved, <= and > on equal symbol sets"
  },
  {
   "property": "C51",
   "status": "partial",
   "theorems": [
    "C51_append_refuted",
    "C51_complete_rules_partial"
   ],
   "note": "Refuted for appending after identification; proved for complete rules shared by any grammars."
  },
  {
   "property": "C52",
   "status": "proved",
   "theorems": [
    "C52_items",
    "C52_rules"
   ],
   "note": "Strict total orders consistent with ==, for all items and rules."
  },
  {
   "property": "C53",
   "status": "partial",
   "theorems": [
    "C53_orders_partial",
    "C53_greater_refuted"
   ],
   "note": "Both orders are strict total orders, == is equality, <= and >= agree; the operator > of LR(1) items is refuted (an item is > itself)."
  },
  {
   "property": "C54",
   "status": "partial",
   "theorems": [
    "C54_states_partial",
    "C54_transitions_partial",
    "C54_initial_partial",
    "C54_guards_partial"
   ],
   "note": "States, transitions, start states and guard states are exactly the canonical LR(0) collection. Missing: grammars with the empty item or the end of input inside rules (the closure is wrong for those, C28); FIRST sets and rule identifiers enter as functions."
  },
  {
   "property": "C55",
   "status": "partial",
   "theorems": [
    "C55_exact_partial",
    "C55_order",
    "C55_accept_partial",
    "C55_ends_partial",
    "C55_endless_guard_refuted"
   ],
   "note": "The actions of every state of a built machine are proved to be exactly the LALR(1) actions, computed without failure for grammars with finitely many items in which no guard starts with itself; for a guard that starts with itself the computation is shown not to end (refuted). Missing: grammars whose rules contain the empty item or the end of input (C28 shows the closure is wrong there); FIRST sets are taken as grammar::first gives them (C25)."
  },
  {
   "property": "C56",
   "status": "proved",
   "theorems": [
    "C56_end_of_guard",
    "C56_strong"
   ],
   "note": "End-of-guard lookup is exact; the strong symbol is one the weak symbol was declared for."
  },
  {
   "property": "C57",
   "status": "partial",
   "theorems": [
    "C57_hides_refuted",
    "C57_actions_partial",
    "C57_none_lost"
   ],
   "note": "What the rewriter does is exact for every action set and lookahead source relation, and no action is lost. Missing: that the return states it looks at are all of them. C57_hides_refuted, with the real lookahead sources of C82, shows a grammar with an ambiguous sentence whose conflict disappears because the rewriter looks only at the next symbol of kernel items."
  },
  {
   "property": "C58",
   "status": "partial",
   "theorems": [
    "C58_complete_partial",
    "C58_language_partial",
    "C58_one_tree_partial",
    "C58_first_refuted"
   ],
   "note": "Proved for grammars without guards whose FIRST sets are right, actions without rewriters, and no Accept/Reduce clash (which find_conflicts does not report, see C43): the parser accepts exactly the derivable token streams, leaves the value of the tree, and trees are unique. C58_first_refuted: the full statement is false. For 0 -> 1 2 t6, 1 -> t4, 2 -> 2 t5 | (nothing), FIRST(2) misses t5, no conflict is reported and the sentence t4 t5 t6 is rejected."
  },
  {
   "property": "C59",
   "status": "partial",
   "theorems": [
    "C59_generates_partial",
    "C59_language_partial",
    "C59_clear_end",
    "C59_starts",
    "C59_first_refuted",
    "C59_end_refuted"
   ],
   "note": "C59_generates_partial: the generator ends. C59_language_partial: without a reported conflict the parser decides the language, ignored symbols taken out. Proved for languages without guards, weak symbols, precedences and conflict attributes, and without LR(1) resolution, whose grammars meet the conditions under which FIRST is right (C25). Also needed: no state both accepts and reduces (C59_clear_end: so if no start symbol is used in a rule), and the numbers fit into the tables. The full statement is refuted: C59_first_refuted (nothing is reported, a sentence is rejected), C59_end_refuted (nothing is reported, the parser never ends). C59_starts: undefined start symbols."
  },
  {
   "property": "C60",
   "status": "partial",
   "theorems": [
    "C60_reported_partial",
    "C60_severity_partial",
    "C60_errors_partial",
    "C60_reduce_refuted"
   ],
   "note": "Proved for languages without weak symbols (C36_weak_refuted shows why) and all rewriters that only take decisive actions away. The full statement on errors is refuted by C60_reduce_refuted: two reductions that clash are only a warning when the symbol can be shifted too. Accept actions are never part of a conflict."
  },
  {
   "property": "C61",
   "status": "partial",
   "theorems": [
    "C61_warned_partial",
    "C61_sound_partial",
    "C61_closure_refuted"
   ],
   "note": "Proved for items in the kernel of a state, for all parsers that are made. C61_closure_refuted: guards at the start of a rule are next in items that are not in the kernel, and are never warned about. The symbol named in the warning may be another one of the state, if all guards have been shown with it."
  },
  {
   "property": "C62",
   "status": "partial",
   "theorems": [
    "C62_words_partial",
    "C62_dfa_partial",
    "C62_lexer_partial",
    "C62_cuts_unique",
    "C62_compaction_refuted"
   ],
   "note": "For all definitions that C11 covers: the automaton accepts exactly the words of the definitions, the DFA too, and the lexer cuts every text as specified (C62_cuts_unique: the specification fixes the lexeme). Excluded: regular expressions excluded in C11, symbol sets excluded in C04/C05, automata excluded in C09 when compaction is on. The full statement is refuted: with the default options the tokens (a|b)c and b lose the token b."
  },
  {
   "property": "C63",
   "status": "partial",
   "theorems": [
    "C63_warnings_partial",
    "C63_empty_word_refuted",
    "C63_compaction_refuted",
    "C63_self_clash_refuted"
   ],
   "note": "Exact characterisation of the reported terminals and their details for all definitions that C11 covers. Refuted in full: a terminal that matches only the empty word is not reported, nor one that compaction loses, and a symbol may be said to clash with itself."
  },
  {
   "property": "C64",
   "status": "partial",
   "theorems": [
    "C64_lexer_partial",
    "C64_table_partial",
    "C64_parser",
    "C64_priority_refuted",
    "C64_strong_refuted",
    "C64_split_refuted"
   ],
   "note": "C64_lexer_partial: lexemes and their symbols for any block of C62 whose definitions are weak exactly if their symbols are. C64_table_partial: every entry of the table of weak and strong symbols comes from a clash. C64_parser: what the rewriter does with the table. The full statement is false: with two weak symbols for one text the one with priority can be lost (C64_priority_refuted), the strong symbol is the one with the lowest identifier and not the one with priority (C64_strong_refuted), and a state that uses the weak symbol has no action for symbols split off it (C64_split_refuted)."
  },
  {
   "property": "C65",
   "status": "partial",
   "theorems": [
    "C65_inheritance",
    "C65_loop_refuted",
    "C65_errors",
    "C65_symbols",
    "C65_definitions",
    "C65_expressions",
    "C65_sets_partial",
    "C65_replaced_sets_refuted"
   ],
   "note": "C65_inheritance, C65_errors, C65_symbols, C65_definitions and C65_expressions hold in full for definitions that the parser of language files can produce (written_ok). C65_sets_partial: the weak and ignored sets, if nothing is replaced; C65_replaced_sets_refuted: a replaced terminal stays weak or ignored. C65_loop_refuted: languages that inherit from each other are compiled without end."
  },
  {
   "property": "C66",
   "status": "partial",
   "theorems": [
    "C66_rules_partial",
    "C66_language_partial",
    "C66_other_language_refuted"
   ],
   "note": "C66_rules_partial and C66_language_partial hold for languages that name no terminals of other languages and whose definitions of terminals are in order; the lexemes carry the symbols of terminals, without weak or ignored ones (these are C33, C64 and C32). C66_other_language_refuted: a missing terminal of another language is compiled to symbol -1 without a report."
  },
  {
   "property": "C67",
   "status": "partial",
   "theorems": [
    "C67_messages_partial",
    "C67_errors_partial",
    "C67_unused_partial",
    "C67_used_ignored_partial",
    "C67_addition_refuted",
    "C67_guards_refuted",
    "C67_replaced_refuted"
   ],
   "note": "C67_messages_partial lists all messages, C67_errors_partial says when there is no error, C67_unused_partial and C67_used_ignored_partial what is reported or recorded at the end, for languages that name no terminals of other languages. Refuted: an addition to or replacement of a missing nonterminal is an error (C67_addition_refuted), terminals in guards count as used (C67_guards_refuted), terminals whose only use was replaced are reported (C67_replaced_refuted)."
  },
  {
   "property": "C68",
   "status": "partial",
   "theorems": [
    "C68_parser_partial",
    "C68_text_partial",
    "C68_first_refuted"
   ],
   "note": "C68_text_partial: under the conditions of C64 and C59 (all stages have enough fuel, the grammar is workable, no conflict is reported, no state both accepts and reduces at the end) the lexer and the parser end on every text and accept exactly the texts that are spelled by terminals for which the start symbol stands, for chains of inheriting languages; C68_parser_partial: the same for the parser alone. C68_nontrivial applies the theorem to a language with a weak, a strong and an ignored terminal. Missing: precedence blocks, conflict attributes, guards and other items that C59 leaves out, texts matched by weak and strong definitions at once, terminals of several kinds. C68_first_refuted: the full statement is false, the parser for S = A B 'c', A = 'a', B = B 'b' | (nothing) is made without any message and rejects \"abc\"."
  },
  {
   "property": "C69",
   "status": "partial",
   "theorems": [
    "C69_tables",
    "C69_entries",
    "C69_arrays_partial",
    "C69_arrays_refuted"
   ],
   "note": "The object made from the generated arrays answers every query as the tables do (C69_tables, full). Missing: that the source is valid C++ for every language: C69_arrays_refuted shows a grammar without guards and weak symbols whose arrays have empty initialisers."
  },
  {
   "property": "C70",
   "status": "partial",
   "theorems": [
    "C70_identifier",
    "C70_prefix",
    "C70_constants_exist",
    "C70_constants_partial",
    "C70_nonterminals_partial",
    "C70_constants_refuted"
   ],
   "note": "Constants exist and are identifiers for all names; they are distinct if no identifier is another one with an underscore and a number. C70_constants_refuted: a, 'a' and a-1 give the same constant twice."
  },
  {
   "property": "C71",
   "status": "partial",
   "theorems": [
    "C71_classes",
    "C71_reserved",
    "C71_written",
    "C71_language_partial",
    "C71_language_refuted"
   ],
   "note": "Class names are unique per item, valid and not reserved, for all sequences of requests (C71_classes, C71_written). Missing: the class of the language itself, C71_language_refuted (language simple-n with a nonterminal simple)."
  },
  {
   "property": "C72",
   "status": "partial",
   "theorems": [
    "C72_names",
    "C72_own_name",
    "C72_variables_refuted"
   ],
   "note": "Names of items are distinct and as stated for all rules (C72_names). Missing: the variables: C72_variables_refuted (a-b and a_b in one rule)."
  },
  {
   "property": "C73",
   "status": "partial",
   "theorems": [
    "C73_variables",
    "C73_valid_partial",
    "C73_functions_partial",
    "C73_guards_refuted",
    "C73_types_refuted",
    "C73_position_refuted",
    "C73_content_refuted",
    "C73_nested_refuted"
   ],
   "note": "Valid classes proved for languages where rules of a nonterminal differ in more than guards, lists have an item that is not a guard, and variables with equal names have equal classes; otherwise refuted by five witnesses. The names of variables of a class are always different."
  },
  {
   "property": "C74",
   "status": "partial",
   "theorems": [
    "C74_tree_partial",
    "C74_end_refuted"
   ],
   "note": "Proved for every accepted text unless a guard is passed at the end of the input (refuted there: a null pointer is dereferenced); the languages are those of good_language."
  },
  {
   "property": "C75",
   "status": "partial",
   "theorems": [
    "C75_start_partial",
    "C75_final_partial",
    "C75_empty_refuted",
    "C75_end_refuted",
    "C75_nested_refuted"
   ],
   "note": "Proved for objects that do not begin (end) with something empty, in languages without a list nested directly in a list of the same kind; refuted in both cases."
  },
  {
   "property": "C76",
   "status": "partial",
   "theorems": [
    "C76_imports_partial",
    "C76_ends",
    "C76_alias_refuted"
   ],
   "note": "Proved where two names of one file have the same real path, which the console has to ensure; refuted for consoles that do not (C76_alias_refuted: the console of the tool only makes paths absolute). Ends if there are finitely many names."
  },
  {
   "property": "C77",
   "status": "partial",
   "theorems": [
    "C77_tests_partial",
    "C77_ends",
    "C77_long_name_refuted",
    "C77_undefined_refuted"
   ],
   "note": "Proved for runs that come to their end, with conditions under which they do (C77_ends). Refuted without them: names of tests longer than 54 characters throw (C77_long_name_refuted) and a test for an undefined nonterminal uses a null pointer (C77_undefined_refuted). Reports of the stages that build the language are not modelled."
  },
  {
   "property": "C78",
   "status": "partial",
   "theorems": [
    "C78_collected",
    "C78_checks_partial",
    "C78_language_partial",
    "C78_ends",
    "C78_missed_refuted",
    "C78_spurious_refuted",
    "C78_replaced_refuted"
   ],
   "note": "C78_language_partial: for a chain of languages without replaced definitions, and grammars for which FIRST is right (C25), exactly the guards that can match nothing are reported, once each; C78_collected needs no condition. The full statement is false: a guard of a replaced production is still reported, and mistakes of FIRST make the check miss guards or reject good ones (refuted)."
  },
  {
   "property": "C79",
   "status": "partial",
   "theorems": [
    "C79_status",
    "C79_generates",
    "C79_success",
    "C79_complete",
    "C79_stops_partial",
    "C79_late_refuted"
   ],
   "note": "Status, generation and choice are proved in full (C79_status, C79_generates, C79_success, C79_complete) with the stages as arbitrary functions. C79_stops_partial needs that looking for unused symbols reports no error; otherwise the lexer is still built (C79_late_refuted). Whether the generated files could be written is not checked by the program and not modelled."
  },
  {
   "property": "C80",
   "status": "partial",
   "theorems": [
    "C80_written_partial",
    "C80_faithful_partial",
    "C80_productions",
    "C80_modifiers",
    "C80_brackets",
    "C80_strings",
    "C80_strings_stand",
    "C80_parse",
    "C80_last",
    "C80_reference_refuted",
    "C80_start_refuted",
    "C80_brackets_refuted"
   ],
   "note": "C80_written_partial: the definition file written down again is the text, for files without redundant notation, references to symbols, languages of start symbols or brackets after parenthesised sequences; C80_faithful_partial: so nothing is lost. C80_productions, C80_modifiers, C80_brackets, C80_strings, C80_parse, C80_last hold for all files. Refuted: a symbol defined by reference gives no definition file and no error; the language of a start symbol and brackets after parenthesised sequences are dropped. The generated lexer and parser of the definition language and positions are not modelled."
  },
  {
   "property": "C81",
   "status": "partial",
   "theorems": [
    "C81_right_partial",
    "C81_left_partial",
    "C81_two_symbols_refuted"
   ],
   "note": "C81_right_partial and C81_left_partial: in the tree of every accepted input the operators are grouped as the block says, for each pair of rules x -> a x and x -> x o c. Missing: rules in which two symbols have a level (false there: C81_two_symbols_refuted), operators that are or have weak symbols, grammars with guards, and states where a second rule could be reduced on the operator."
  },
  {
   "property": "C82",
   "status": "partial",
   "theorems": [
    "C82_exact_partial",
    "C82_explained_partial",
    "C82_ends_partial"
   ],
   "note": "The search answers with exactly the source items, ends, stays within bounds, and every lookahead is explained by them. Missing: grammars with the empty item or the end of input inside rules (as in C30)."
  },
  {
   "property": "C83",
   "status": "partial",
   "theorems": [
    "C83_exact_refuted",
    "C83_unbalanced_refuted",
    "C83_literals_refuted",
    "C83_exact_partial",
    "C83_every_text",
    "C83_ends",
    "C83_no_false_alarm_partial",
    "C83_stage_partial"
   ],
   "note": "The full statement is refuted: a quoted bracket counts in the search for the partner of a bracket ((\\(a) is reported although nothing is wrong, (a\\) is not reported although its bracket is not closed), a closing bracket without partner is never reported, and names of literal expressions are reported as unknown. Proved for all texts without quoted brackets in groups and quoted square brackets in classes: the faults and positions are exact (C83_exact_partial, C83_stage_partial), well formed expressions are accepted. Every text is of the form the theorems talk about (C83_every_text) and the check always ends (C83_ends)."
  },
  {
   "property": "C84",
   "status": "partial",
   "theorems": [
    "C84_gaps",
    "C84_letters_refuted",
    "C84_names_refuted",
    "C84_exact_partial",
    "C84_accepted",
    "C84_one_type",
    "C84_ascii",
    "C84_well_formed",
    "C84_token_partial"
   ],
   "note": "The full statement is refuted: characters that the Unicode data file gives by first and last only (Chinese characters, Korean syllables and others) are in no category (C84_gaps, C84_letters_refuted), and names with several modifiers run together are accepted (C84_names_refuted). Proved: every documented name stands for exactly the characters of its types in the table, every accepted name starts with a documented one and means the same, no character has two types, the ASCII categories, and (with C11) the automaton for {name} accepts exactly these characters, without case folding and surrogates (C84_token_partial; C84_well_formed for the general case)."
  },
  {
   "property": "C85",
   "status": "partial",
   "theorems": [
    "C85_exact_refuted",
    "C85_lookahead_refuted",
    "C85_item_partial",
    "C85_same_item_partial",
    "C85_set_partial",
    "C85_rule_partial",
    "C85_lr0_partial",
    "C85_lr1_partial",
    "C85_state_partial",
    "C85_action_partial",
    "C85_conflict_partial",
    "C85_tree_partial"
   ],
   "note": "The full statement is refuted: priorities of guards are not shown (C85_exact_refuted), and an empty item at the end of a rule looks like a lookahead called 'empty' (C85_lookahead_refuted). Proved: everything else can be read back, for names as in definition files; symbols are read back as names (C85_same_item_partial: as symbols when names differ). States are shown without closure; the case of items derived by users is not modelled."
  },
  {
   "property": "C86",
   "status": "partial",
   "theorems": [
    "C86_safe",
    "C86_refused",
    "C86_written_partial",
    "C86_one_start_partial",
    "C86_start_refuted"
   ],
   "note": "The full statement is refuted: the start symbols of a parser block come out in the opposite order (C86_start_refuted). Proved: no missing child or lexeme is used (C86_safe), refusal is exact (C86_refused), and everything else is as written (C86_written_partial, C86_one_start_partial). Positions are left out; that the parser makes trees of the grammar is C37."
  },
  {
   "property": "C87",
   "status": "partial",
   "theorems": [
    "C87_destroyed",
    "C87_copies_partial",
    "C87_assigned_partial",
    "C87_memory",
    "C87_kinds",
    "C87_lost",
    "C87_copy_refuted"
   ],
   "note": "Copies and assignments of all classes are shown to own new objects only and to release the target's parts once, and exactly what a copy says is given. The full claim is refuted: the kinds of items and rules, the flags of lexer blocks and the positions of grammars and test blocks are lost (C87_lost); precedence blocks are copied with their pointers (C87_memory is exact); a top level block assigned one of another kind keeps a released pointer (C87_kinds is exact); a grammar assigned to itself is emptied. Sources that belong to the target are outside the model."
  },
  {
   "property": "C88",
   "status": "partial",
   "theorems": [
    "C88_items",
    "C88_production",
    "C88_in_order_partial",
    "C88_file",
    "C88_blocks_partial",
    "C88_end_kept",
    "C88_added_refuted"
   ],
   "note": "Shown for everything the reader makes (C88_items, C88_production) and for files over their blocks (C88_file). The full claim is refuted for parts added by hand (an item never gets a later end, a production takes the end of an earlier item as its start, an empty first item is forgotten) and for blocks of parsers and tests, which have no position. That the parts of a syntax tree lie inside it is a hypothesis (see C75)."
  },
  {
   "property": "C89",
   "status": "partial",
   "theorems": [
    "C89_lexemes",
    "C89_states",
    "C89_first",
    "C89_trees_partial",
    "C89_fine",
    "C89_trees_refuted",
    "C89_actions_partial",
    "C89_importance",
    "C89_actions_refuted"
   ],
   "note": "Proved in full for positions, lexemes, states and conflicts (C89_lexemes, C89_states). The full statement is refuted for trees (C89_trees_refuted: the node of a lexeme and the node of a nonterminal are each less than the other) and for actions of the library compared with those of languages (C89_actions_refuted). Proved for trees that do not pull in opposite directions, among them trees of one outline and trees without lexemes (C89_trees_partial, C89_fine), and for actions of one kind (C89_actions_partial)."
  },
  {
   "property": "C90",
   "status": "partial",
   "theorems": [
    "C90_values",
    "C90_client",
    "C90_count",
    "C90_released_partial",
    "C90_released_refuted",
    "C90_built"
   ],
   "note": "Values, safety and the client's arrays are proved for every history (C90_values, C90_client), and the number of arrays left (C90_count). The last part is refuted: copies of objects around a client's arrays, and objects to which one was assigned, never release the arrays they made (C90_released_refuted). Proved without such objects (C90_released_partial). Failure of new is left out."
  },
  {
   "property": "C91",
   "status": "partial",
   "theorems": [
    "C91_history_partial",
    "C91_answered_partial",
    "C91_given",
    "C91_characters",
    "C91_verify_refuted"
   ],
   "note": "C91_history_partial and C91_answered_partial: for expressions that C11 covers, with sets of characters that are compatible (C07) and can be looked up (C13), and texts of 16-bit characters. The full property is refuted (C91_verify_refuted): with [a-df] and [a-cf] verify says yes, then 'e' is read as a match and 'f' is not. C91_given and C91_characters are full."
  },
  {
   "property": "C92",
   "status": "partial",
   "theorems": [
    "C92_answers_partial",
    "C92_settled_partial",
    "C92_ends_partial",
    "C92_late_refuted"
   ],
   "note": "Every history of questions and changes of rewriters is answered with the exact LALR(1) actions of the state, rewritten by the rewriters in force when it was asked for first (C92_answers_partial, C92_ends_partial); with the rewriters set first, no answer depends on the history or the caches (C92_settled_partial). That a rewriter added later is used for all states is refuted (C92_late_refuted). Missing: the grammars excluded in C54 and C55, rewriters that ask the builder themselves."
  },
  {
   "property": "C93",
   "status": "partial",
   "theorems": [
    "C93_states",
    "C93_valid",
    "C93_names",
    "C93_language_partial",
    "C93_repeated_refuted",
    "C93_clash_refuted"
   ],
   "note": "C93_states: the n-th start symbol starts in state n, which is the state its functions use, exactly if no start symbol is given twice. C93_valid: no function is defined twice exactly if the identifiers of the start symbols differ. C93_names: all names are identifiers and none is the name of a syntax tree class, of the language's class or of another member. C93_language_partial: the parser made for a start symbol accepts exactly the language of this symbol, under the conditions of C59 and with different identifiers. The full property is refuted: with a repeated start symbol a later function starts in the state of another symbol (C93_repeated_refuted), and start symbols a-b and a_b get functions of one name (C93_clash_refuted)."
  },
  {
   "property": "C94",
   "status": "partial",
   "theorems": [
    "C94_shown",
    "C94_read_partial",
    "C94_exit",
    "C94_options",
    "C94_suppress_partial",
    "C94_details_refuted",
    "C94_remarks_refuted",
    "C94_worst_refuted",
    "C94_forged_refuted",
    "C94_file_refuted"
   ],
   "note": "C94_shown, C94_exit and C94_options are full: what is on each stream, in which order and in which form (numbers in decimal, counted from 1), and that the exit code is that of the last serious message whatever the options. C94_read_partial: the text on the error stream determines what was shown, for texts without line ends, file names without ': ' and identifiers without a closing bracket; without these conditions it does not (C94_forged_refuted, C94_file_refuted). C94_suppress_partial: suppressing warnings hides just these, if no warning has details and output is not verbose; otherwise refuted (C94_details_refuted, C94_remarks_refuted). That the exit code is that of the worst message is refuted (C94_worst_refuted)."
  },
  {
   "property": "C95",
   "status": "partial",
   "theorems": [
    "C95_one_meaning",
    "C95_same",
    "C95_again",
    "C95_comma_refuted"
   ],
   "note": "C95_same, C95_again and C95_one_meaning are full for the language of json.tp: the output is cut by longest match into the tokens of the value that was read, these are the tokens of no other value, and formatting twice is formatting once. That json.tp reads JSON is refuted (C95_comma_refuted): [1,2] is an array of one number '1,2', since the full stop in the expression for fractions stands for every character. Syntax trees are given by the grammar; the parser is the subject of C37, C68 and C74."
  },
  {
   "property": "C96",
   "status": "partial",
   "theorems": [
    "C96_exact_partial",
    "C96_decides_partial"
   ],
   "note": "C96_exact_partial: for all lexemes, actions and inputs, some run of the modelled parser with the modelled tables accepts exactly if the input is a^n b^n c^n with n > 0. C96_decides_partial: with 5 |input| + 4 steps every run ends, without undefined behaviour, and accepts exactly these inputs. Missing: 'b'* is a nonterminal in place of an EBNF item, and the tables are those before the rewriting of actions."
  },
  {
   "property": "C97",
   "status": "partial",
   "theorems": [
    "C97_comments_partial",
    "C97_missed_refuted",
    "C97_swallows_refuted"
   ],
   "note": "The full property is refuted both ways: /***/ is a comment of C that the lexer does not take (C97_missed_refuted), and two comments with a statement between them are one comment for the lexer if the first ends with two stars (C97_swallows_refuted). C97_comments_partial: among texts without two adjacent stars before the final slash, exactly the comments of C are taken; whatever is taken begins and ends like a comment."
  },
  {
   "property": "C98",
   "status": "partial",
   "theorems": [
    "C98_comments_partial",
    "C98_missed_refuted",
    "C98_swallows_refuted"
   ],
   "note": "The full property is refuted both ways: a comment with a star before its closing curly bracket is not taken (C98_missed_refuted), and two comments with a statement between them are one comment for the lexer if the first ends with two stars and a bracket (C98_swallows_refuted). C98_comments_partial: among texts without a star before a star or closing curly bracket, exactly the comments of Pascal are taken; whatever is taken begins and ends like a comment."
  }
 ]
}