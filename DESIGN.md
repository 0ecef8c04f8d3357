# Formal model of TameParse: design

The code under study is Logicalshift/TameParse at the commit found in `/repo`. It is read as text; nothing is built
or run. The model is written in Coq 8.16.1 (Rocq), in `/verif/rocq/theories`, logical name `Verif`, with the standard
library only.

## Conventions

* One `…Model.v` file per area holds computable Gallina functions only. Every definition cites the file and lines it
  models and names any simplification.
* `…Spec.v` files hold the independent specification (small inductive relations or set-level definitions that do not
  mention the model's helpers).
* `…Proofs.v` files hold the proofs, `…Props.v` files hold only the property theorems, each closed by `exact`, each
  followed by `Print Assumptions` and accompanied by an `Example` meeting its hypotheses.
* Characters, symbols and identifiers from data are `Z`; lengths and indices are `nat`.
* Ordered C++ containers (`std::set`, `std::map`) are modelled as strictly sorted lists, `std::vector` as a list.
* Loops become structural recursion or recursion on explicit fuel. Exhausted fuel is a distinct value
  (`None`/`OutOfFuel`) and theorems exclude it or prove that a stated amount of fuel suffices.
* Undefined behaviour (reading outside an array, use after free, signed overflow where it matters) is a distinct
  outcome (`None`/`UB`).
* When the faithful model violates a property the violation is proved as `…_refuted` with a witness, and what does
  hold is proved next to it (suffix `_partial` when it is a restriction of the full statement).

## Plan per property

| id | model | proof |
|----|-------|-------|
| C01 | `symbol_set` as a list of ranges sorted by lower bound, `|=`, `exclude`, `invert`, `&=`, `[]` transcribed with the `lower_bound`/`upper_bound` searches | invariant (sorted, disjoint, non-empty, not touching) preserved by every operation; membership lemma per operation; induction over the operation list |
| C02 | same | normal forms with equal membership are equal lists; order laws of `<`; refutation for the empty-range exclusion |
| C03 | `symbol_map` as association list plus vector | invariant over the request history |
| C04 | `split`, `add_set`, `deduplicate` as loops over the sorted cell map | refutation by the gap overshoot; partial theorem for the inputs that do not overshoot |
| C05 | `symbol_level` trie for wchar_t | refutation on a 256-aligned boundary; partial theorem for lookups in ranges that do not end on a boundary |
| C06 | `to_hard_coded_table`, `hcst_lookup_sym` over an integer array with bounds checking | refutation or agreement theorem per level |
| C07 | NFA as list of transitions plus symbol table; runs as set of states | simulation over strings |
| C08 | `to_dfa` worklist | invariant of the worklist; simulation over strings |
| C09 | `to_compact_dfa` | refutation by a small DFA |
| C10 | `to_ndfa_with_merged_symbols` | simulation over strings |
| C11 | regex compile loop and builder | refutation (`a*b*` accepts "ba"); soundness/completeness for a fragment |
| C12 | `add_literal` | acceptance by induction over the literal |
| C13 | `surrogate_pair`, `add_surrogate_transition` | refutation for multi-high-surrogate ranges, exactness for the others |
| C14 | flat and compact rows | binary search correctness |
| C15, C16 | `dfa_stream::operator>>` over a list input with buffer | invariant buffer ++ remaining input = unread text; maximality by induction |
| C17 | `position_tracker` | refutation for the offset at CR; line/column theorem |
| C18 | `stringreader` and `stream_stream` | refutation (last character lost), exact statement of what is delivered |
| C19 | `utf8reader::get` with the caller's variable as an argument | refutation; ASCII partial theorem |
| C20 | `convert_range` | refutation for a range starting inside an entry; exact for ranges that start at or before an entry |
| C21, C22 | `item_set` as list of 32-bit words | refinement to a finite set; refutation of `==` |
| C23, C24 | association lists | history invariants |
| C25 | `grammar::first` with its cache | refutations (caching order, nullable handling); soundness of everything reported |
| C26 | `follow`, `fill_follow` | soundness given sound FIRST; refutations |
| C27 | `lr1_item_set::insert` | set-level characterisation |
| C28 | closure loops | least fixpoint |
| C29 | `lalr_machine` | history invariant |
| C30 | propagation worklist | least fixpoint of the link graph; termination measure |
| C31, C47 | sort by (symbol, score), `lower_bound` | sortedness and binary search |
| C32–C36 | rewriters on action sets | case analysis lifted to all action sets |
| C37, C38 | LR runtime with tables | stack invariant: concatenated yields of stack trees = consumed tokens |
| C39 | `parser_stack` arena with reference list and collector | refinement to independent lists under newest-first destruction; refutation for the other order |
| C40 | `can_reduce`, `fake_reduce` | refutation (reads the uninitialised slot); exactness when the scan stays inside the table |
| C41, C42 | guard check, shared lookahead list | state preservation, positions invariant |
| C43 | runtime loop on tables of a cyclic grammar | refutation; termination for tables without unit/empty reduction cycles if time permits |
| C44, C45 | reference counts, comparison operators | history invariant; refutation of `<=`/`>=` |
| C46 | `dequote_string` | round trip by induction |
| C48 | key map | history invariant |
| C49 | the generated row pointer and transition arrays of `OutputStages/cplusplus.cpp` | comparison with the dynamic rows; refutation at the last rows |
| C50 | the operators of `transition` | order laws; refutation of `<=` and `>` |
| C51 | `rule::identifier` with its cache | history invariant; refutation after appending |
| C52 | `item::compare`, `operator<` of rules | strict total order by induction on item trees |
| C53 | `lr0_item`, `lr1_item` operators | order laws; refutation of `>` |
| C54 | `lalr_builder::complete_parser`, `generate_closure` | worklist invariant against the canonical collection |
| C55 | `lr_action`, `generate_actions`, guard expansion | set equality with the LALR(1) actions |
| C56 | `has_end_of_guard`, `strong_for_weak` | binary search correctness |
| C57 | `lr1_rewriter::rewrite_actions` | case analysis lifted to all action sets |
| C58 | builder, tables and runtime together | completeness of the LALR automaton: forward simulation along a rightmost derivation |
| C59 | `lr_parser_stage::compile` over builder, conflicts, tables and runtime | composition of C25, C29-C32, C36, C43, C58; refutations by computing whole parsers |
| C60 | the messages of `lr_parser_stage.cpp` 332-441 | one head message for each conflict, with C36; refutation |
| C61 | `warn_clashing_guards` | induction over the symbols and guards of a state; refutation |
| C62 | `lexer_stage::compile`: the builder for all definitions, subset construction, options | induction over the definitions with path invariants for the shared builder, then C07-C10 and C16; refutation by computing a lexer |
| C63 | `lexer_stage::compile` 434-503 | every state of the subset construction can be reached; fold over the states; refutations |
| C64 | `weak_symbols::add_symbols` on the DFA, its call in `lexer_stage::compile`, with `terminal_dictionary::split` and the rewriter of C33 | invariant of the loop over the states (earlier entries and parents never change); the lexer through an automaton with one chosen symbol per state; refutations |
| C65 | `language_stage::compile` 90-370 with `add_ebnf_lexer_items`; the lexer blocks of `language_parser` | `LangSpec.v`: definitions in force over a chain of languages; invariant over all definitions (numbering, entries, sets); error exactly at the first definition not in order; refutations by computation |
| C66 | `language_stage::compile` 375-445 and `compile_item`; EBNF items of `language_parser` 232-502 | invariant over the definitions of nonterminals; the translation of a production by induction on its syntax; words by a structural semantics of items, equal to parse trees (repeats turned from left to right) and to the productions as written (brackets flattened) |
| C67 | `language_stage::compile` 375-566, `process_rule_symbols`, `report_unused_symbols` | exact list of messages from the invariants of C65 and C66; refutations by computation |
| C68 | the stages of C64, C59 and C65-C67 put together: `language_stage`, `lexer_stage`, `lr_parser_stage`, the lexer and `parser::state::parse` | composition of C66, C64 and C59 through the numbering of terminals and nonterminals; a rightmost derivation is a reading of the productions as written; refutation by computation |
| C69 | `source_parser_tables` (600-837) and the constructor of `parser_tables` from arrays; queries read by index, outside the arrays is a distinct outcome | induction over rows: the slice of a row in the flattened array is the row; refutation by computation |
| C70 | `get_identifier`, the loops that choose constants | every character produced is allowed; the search for a free number ends as numbers written in decimal differ; refutation by computation |
| C71 | `class_name_for_item` with its maps, `name_for_item` | invariant over the sequence of requests: used names are exactly those given out; a suffix keeps names apart |
| C72 | the loop of `define_ast` over the items of a rule | induction over the items with the set of used names; refutation by computation |
| C73 | the generated class declarations as data: variables, position members, constructors | induction over the rules of an item with an invariant on the declared variables; refutations by computation |
| C74 | the generated shift function and switch of the reduce function, run on parse trees | mutual induction over the derivation (`parses`) against an independent relation `shows` between trees and objects |
| C75 | the generated functions `pos` and `final_pos` | mutual induction over `shows`; refutations by computation |
| C76 | the import loop of `import_stage` with its stack, set and maps | invariant of the loop against an inductive relation `reached`; termination by counting names not yet imported |
| C77 | the loop over test blocks and tests of `test_stage`, with counters, numbers and reports; the exit code of the console | induction over blocks and tests, with an invariant on the numbers given; refutations by computation |
| C78 | the guards that compiling productions collects, and the check that asks for FIRST of each | induction over productions and languages for the collected guards; the exactness of FIRST (C25) for the check |
| C79 | `main` with the stages as functions that report severities or throw, the choice of language, class and start symbols | case analysis of how far the program gets; the choice against a relational specification |
| C80 | the functions of `language_parser.cpp` from syntax trees to definition files; the parser object | induction over syntax trees that the definition, written down again, is the text |
| C81 | The rewriters, tables and parser of C34, C37 and C39, taken together; no further code | Each part of an accepted tree is tagged with the state it was begun in and the table entries used for it (by induction on the run, no bound). A tree of the wrong shape would need, in one state, the action that the rewriter has removed there; the two items that conflict in this state come from the exactness of the plain machine (C31, C55). |
| C82 | `LookSourceModel.v`: the tables of spontaneous lookaheads and the search for the source of a lookahead | The tables hold exactly the links between kernel items that the closures give (same induction as C30). The search is a worklist over a finite graph: its invariant says that what is visited, waiting and found are closed together, and a measure on the items not yet visited bounds its rounds. |
| C83 | `ndfa_regex::check_regex`, `check`, `check_expression`, `lexer_stage::check_regex` and its positions | every text is cut into pieces; the search for a partner is related to balanced sequences by counting; refutations by quoted brackets |
| C84 | `unicode_for_expression`, `match_prefix`, the end of `compile_expression`, the table of character types | the set built is the union of the chosen blocks; names by prefixes; table facts by computation inside the kernel; C11 for the automata |
| C85 | the texts of `Language/formatter.cpp` for items, rules, item sets, LR items, states, actions, conflicts and trees, over any naming of symbols | each text is shown to be a prefix code: reading is deterministic after any rest that starts with a delimiter, by induction on items and trees; refutations by priorities of guards and `[empty]` |
| C86 | the grammar of `bootstrap.cpp` as data, syntax trees as `astnode`s with missing children and lexemes as an error, all `get_…` functions | a tree of the grammar is a relation between symbols, nodes and words; induction on nodes shows that the words agree with the definition written down as in C80; refusal by following the dots and colons |
| C87 | the copy constructors, `operator=` and destructors of all classes of `TameParse/Language`; objects are trees with addresses, `new` counts addresses, `delete` writes them down; values that are never set are `None` | per class: an assignment releases what belonged to the target and makes new objects only; generic lemmas for lists and optional parts; exact conditions for releasing nothing twice; counterexamples |
| C88 | `add_child`, `add_item`, `add`, the constructors of top level blocks and the items and productions that `definition_for` makes, as positions only | induction on the syntax trees: a part which lies inside changes nothing; the order of positions is total; counterexamples for parts added by hand |
| C89 | the comparison operators of lexemes, positions, trees, accepting actions, LR states and conflicts | orders put together lexicographically; a tree is turned into the list of its items, lexemes and sizes, and its order is the order of the lists unless items and lexemes pull in opposite directions; counterexamples for the rest |
| C90 | the constructors, `operator=` and destructor of `parser_tables` over a memory of arrays that can be released | invariant over all histories: the arrays of the objects are apart, hold their values and are not released; counting of arrays for what is left |
| C91 | class `dfa::lexer` (constructors, `add_symbol`, `compile`, `verify`, `create_stream`) as an object with a history, over the models of expressions, automata, tables and streams; `character_lexer` | invariant over all histories (the automaton holds the expressions in force, the compiled lexer follows them), composed from C11, C07, C08, C14 and C16; fuel monotonicity for termination; refutation with two overlapping classes |
| C92 | `lalr_builder::actions_for_state` with the answers it keeps, `add_rewriter`, `set_rewriters`: a builder as an object with a history | invariant over all histories: the kept answer of a state is the exact set of C55, rewritten by what was in force before the first question; uniqueness of sorted lists makes answers independent of the history; refutation with a late rewriter |
| C93 | the functions for start symbols in generated source (`cplusplus.cpp` 868-903) with their names and initial states, against the initial states of `lr_parser_stage` | induction over the list of start symbols; names through injectivity and validity lemmas of C40; the language through C59; refutations by computation |
| C94 | `std_console::report_error` with its options, streams and exit code, as text | induction over the messages; the line is taken apart at the first ": " and the last colons before it; decimal numbers through the standard library; refutations by computation |
| C95 | the example `json_format.cpp` on the syntax trees of `json.tp`; tokens, longest match and grammar of `json.tp` as the specification | mutual induction over values: after each printed token comes something that cannot prolong it; strings are prefix free, numbers never have two neighbouring characters that are not digits except e and a sign; refutation with [1,2] through the model of regular expressions |
| C96 | the grammar of `Examples/ContextSensitive.tp`, with the tables of the modelled LALR builder and the modelled parser of C37 and C41 | completeness: the states of the guard check and of the parser are followed by induction over n, with an explicit number of steps; soundness: the derivation theorem of C37, and inversion of the trees |
| C97 | the expression and the definitions of names in `AnsiC.tp`, compiled by the modelled compiler of regular expressions; comments of C as the specification | C11 gives the words of the expression; induction over the contents of comments; refutation with a comment that ends in two stars |
| C98 | the expression for comments in `Pascal.tp`, compiled by the modelled compiler of regular expressions; comments of ISO 7185 as the specification | as C97, with the two kinds of brackets |

## Outcomes

The theorem names are those of the `…Props.v` files. A name that ends in `_partial` restricts the statement (the
comment above it says how); a name that ends in `_refuted` is a machine-checked counterexample.

* **C01** (proved) Symbol set operations have set semantics. Membership after any sequence of union/exclude/and/invert operations equals the mathematical set, for non-empty ranges of non-negative symbols. Signed overflow of range(INT_MAX) is not part of the value semantics; C01_and_overflow_refuted shows that &= reaches it on ordinary sets, C01_overflow_only_at_max that nothing else does. Aliased arguments (s |= s) are not modelled.
  `C01_symbol_set_semantics`, `C01_union_range_step`, `C01_and_overflow_refuted`, `C01_overflow_only_at_max`.
* **C02** (proved) Symbol sets are canonical: equality is extensional. Canonical form, extensional equality and strict total order. C02_empty_exclusion_refuted shows the non-emptiness hypothesis is needed.
  `C02_symbol_set_normal`, `C02_symbol_set_eq`, `C02_symbol_set_order`, `C02_empty_exclusion_refuted`.
* **C03** (proved) Symbol map identifiers are stable, dense and injective. All request histories.
  `C03_symbol_map_ids`, `C03_has_duplicates`.
* **C04** (partial) Symbol de-duplication partitions the alphabet. Full statement refuted (C04_deduplicate_refuted): a range that meets earlier symbols and ends in a gap overshoots. Proved for every map whose ranges satisfy all_compatible, and unconditionally for maps of single ranges. C04_copy_refuted: copy construction loses the sets.
  `C04_deduplicate_refuted`, `C04_deduplicate_partial`, `C04_deduplicate_single_ranges_partial`, `C04_copy_refuted`.
* **C05** (partial) Character to symbol-class lookup is exact. Refuted in general (block boundary, aliasing); exact for all maps of disjoint sets without a range of 256 or more characters starting at a multiple of 256 where another ends
  `C05_lookup_refuted`, `C05_lookup_order_refuted`, `C05_lookup_alias_refuted`, `C05_lookup_partial`.
* **C06** (partial) Hard-coded lookup tables agree with the dynamic ones. Refuted from 256 on and for allocation; exact below 256, block-wise from 256 on, always inside the table
  `C06_hard_coded_refuted`, `C06_hard_coded_missing_refuted`, `C06_hard_coded_partial`, `C06_hard_coded_exists_partial`.
* **C07** (proved) Making symbols unique preserves an NFA's language and actions. For any automaton built through the API, whenever de-duplication gives a partition: same reachable states and actions on every word, disjoint symbol sets. A witness shows the partition condition is needed.
  `C07_build_ok`, `C07_unique_symbols`, `C07_unique_symbols_compatible`, `C07_verify_no_symbol_overlap`, `C07_unique_symbols_no_partition_refuted`.
* **C08** (proved) Determinisation preserves the language and the accept actions. Termination and correctness of the subset construction for every NFA with disjoint symbol sets and valid initial states; eager accept actions cut longer words exactly.
  `C08_to_dfa_terminates`, `C08_to_dfa`, `C08_build_unique_dfa`.
* **C09** (partial) DFA compaction preserves the language and the accept actions. The full statement is refuted twice (C09_compact_refuted: an accepting state is lumped with non-accepting ones; C09_compact_missing_refuted: states vanish). Proved for DFAs in which some non-initial state accepts and the first one is told apart from every non-accepting non-initial state by some word.
  `C09_compact_refuted`, `C09_compact_missing_refuted`, `C09_compact_partial`, `C09_compact_terminates_partial`.
* **C10** (proved) Merging equivalent symbol sets preserves a DFA's language. Same states, same paths, same actions; two characters share a merged set exactly if no state tells them apart.
  `C10_merged_symbols`.
* **C11** (partial) Regular expressions compile to automata for their language. Full statement refuted three ways: adjacent repetitions (C11_regex_refuted), interference between tokens (C11_tokens_refuted), alternatives outside brackets with an initial state other than 0 (C11_initial_state_refuted). Proved for every safe expression (safe_whole: no repetition directly beside another, at the border of a repeated part or at the beginning of an alternative) over the whole syntax: characters and escapes, classes, negation, groups, operators, named expressions and literals, names with any number of definitions in the lexer data (each with its own case option), surrogates, case conversion and unicode categories (their tables are those of C84). Texts outside the syntax that are taken without a message and mean something else: [a-]b and [z-a] accept nothing, [] and [\] the empty word, \8 a NUL and an 8 (C11_dash_refuted and the four after it).
  `C11_regex_refuted`, `C11_tokens_refuted`, `C11_initial_state_refuted`, `C11_regex_partial`, `C11_tokens_partial`, `C11_case_options`, `C11_dash_refuted`, `C11_backwards_refuted`, `C11_no_members_refuted`, `C11_open_class_refuted`, `C11_octal_refuted`.
* **C12** (proved) Literals accept exactly themselves. add_literal for any automaton and initial state, any literal with characters in [0, c_MaxSymbol), with and without surrogates and case insensitivity. Interference from regular expressions in the same lexer is C11_tokens_refuted.
  `C12_literal`, `C12_exact`, `C12_case`.
* **C13** (partial) Surrogate-pair transitions accept exactly the code points requested. Refuted for sets with neighbouring characters beyond 0xffff whose encodings start with different units (C13_surrogates_refuted, the full stop); proved for all other non-empty sets.
  `C13_surrogates_refuted`, `C13_surrogates_partial`.
* **C14** (partial) State machine rows: flat and compact tables agree. Rows, agreement, words proved for every exact translator; with the library's own translator the part excluded in C05 is refuted (C14_words_refuted) and the rest proved (C14_words_partial).
  `C14_flat`, `C14_compact`, `C14_agree`, `C14_invalid_state`, `C14_exists`, `C14_words_partial`, `C14_words_refuted`.
* **C15** (partial) Lexing is lossless. Proved for every lexer, client and symbol stream without the end-of-input symbol. Refuted for char streams containing byte 253 (C15_char_refuted), which sign extension turns into the end-of-input symbol.
  `C15_lossless`, `C15_char_refuted`, `C15_char_partial`.
* **C16** (partial) Maximal munch with symbol priority. Proved for every lexer (C16_maximal_munch), for DFA lexers and for the pipeline from a user automaton, apart from the sets excluded in C04/C05. Mixed action classes refuted.
  `C16_maximal_munch`, `C16_lowest_symbol`, `C16_language_actions`, `C16_mixed_actions_refuted`, `C16_dfa_lexer`, `C16_pipeline_partial`, `C16_orders`.
* **C17** (partial) Lexeme positions are faithful to the text. Line and column proved exact; the offset is refuted and its exact value proved.
  `C17_offset_refuted`, `C17_positions_partial`, `C17_order`.
* **C18** (partial) A lexer reading from a string sees the whole string. Refuted for every non-empty string: the last character is never delivered. Exact behaviour proved.
  `C18_last_character_refuted`, `C18_stringreader_partial`, `C18_istream`.
* **C19** (partial) UTF-8 decoding. Refuted for every text with a character beyond ASCII; the exact behaviour (decoded up to the first such character, then bad) is proved for every text.
  `C19_utf8_refuted`, `C19_four_byte_refuted`, `C19_ascii_partial`, `C19_stops_partial`.
* **C20** (partial) Case conversion maps exactly the mapped characters. Refuted for ranges starting inside a table entry and ending behind it; proved for all other sets with the project's own tables, in particular all single characters.
  `C20_case_refuted`, `C20_case_partial`, `C20_single_partial`.
* **C21** (proved) Item sets behave as finite sets of items. item_set contents, changes and iteration for every history of insert, erase and merge.
  `C21_contents`, `C21_changes`.
* **C22** (partial) Equal item sets compare equal. Equality refuted for sets that differ in trailing zero words; proved for sets whose word counts agree; order law proved.
  `C22_equality_refuted`, `C22_equality_partial`, `C22_order`.
* **C23** (partial) Grammar identifiers are stable and injective. Rules proved for all histories; names and items refuted when a nonterminal number not issued by the grammar is looked up, proved otherwise.
  `C23_rules`, `C23_rules_dense`, `C23_names_refuted`, `C23_items_partial`, `C23_names_partial`.
* **C24** (partial) Terminal dictionary consistency. Refuted for names added twice and for splitting symbols not in the dictionary; proved for all histories of documented use.
  `C24_inverse_refuted`, `C24_name_ends_refuted`, `C24_fresh_partial`, `C24_names_partial`, `C24_split_partial`.
* **C25** (partial) FIRST sets are exact. Refuted for empty rules before rules that start with something nullable, nullable or mutual left recursion, and EBNF sequences; termination and stability proved for all grammars, soundness for plain EBNF, exactness for grammars without mutual left recursion.
  `C25_empty_refuted`, `C25_left_recursion_refuted`, `C25_mutual_recursion_refuted`, `C25_ebnf_refuted`, `C25_ends`, `C25_stable`, `C25_sound_partial`, `C25_exact_partial`, `C25_rule_exact_partial`.
* **C26** (partial) FOLLOW sets are exact. The computation ends for every grammar and gives the least solution of the FOLLOW equations for whatever FIRST sets it is given (C26_ends, C26_relative_partial, C26_same). It agrees with the textbook definition, apart from the empty item as a member, for grammars that meet the conditions of C25_exact_partial and have no repetitions (C26_exact_partial). Refuted in general: the sets contain the empty item, the end of a repeated sequence is not followed by its start, terminals have empty sets.
  `C26_empty_refuted`, `C26_repeat_refuted`, `C26_terminal_refuted`, `C26_ends`, `C26_relative_partial`, `C26_same`, `C26_exact_partial`.
* **C27** (proved) LR(1) item sets merge lookahead per LR(0) item. For every sequence of insertions, every numbering of rules and every sound == of lookahead sets: one entry per LR(0) item, union of lookaheads, insertion reports exactly whether anything changed.
  `C27_contents`, `C27_changes`.
* **C28** (partial) LALR closure. Exact closure (items and lookaheads) for generate_closure, create_closure and the per-item closure, with the closure cache and any state of the caching flags, and termination, for grammars whose rules contain neither the empty item nor the end of input; both exceptions have counterexamples. FIRST sets are taken as given (C25); identifiers of rules as an injective function (C23).
  `C28_generate_closure_partial`, `C28_create_closure_partial`, `C28_item_closure_partial`, `C28_ends_partial`, `C28_empty_refuted`, `C28_eoi_refuted`.
* **C29** (partial) LALR machine states are unique and transitions deterministic. Every history of state additions, transitions and lookahead additions. Kernels are compared as lists of items in the order of addition: C29_order_refuted shows the same items in another order make another state, so 'same kernel' is proved as same list, not as same set; adding items to a state after it has been passed to the machine is not modelled.
  `C29_known_state`, `C29_new_state`, `C29_unique`, `C29_identifier`, `C29_kept`, `C29_transitions`, `C29_targets`, `C29_out_of_range`, `C29_lookahead`, `C29_items`, `C29_order_refuted`.
* **C30** (partial) Lookahead propagation reaches the least fixpoint. The lookaheads are exactly the LALR(1) lookaheads, and the construction ends with no access out of bounds. Missing: grammars with the empty item or the end of input inside rules; FIRST sets are taken as they are. The tables of spontaneous lookaheads used for reports are the subject of C82.
  `C30_exact_partial`, `C30_all_items_partial`, `C30_ends_partial`.
* **C31** (partial) Parser tables answer with every action, in priority order. Every scan visits exactly the actions of the state for the symbol, in priority order, for tables with next states and rule counts that fit in 24 bits; refuted beyond that (next states are stored modulo 2^24).
  `C31_terminals_partial`, `C31_nonterminals_partial`, `C31_wide_refuted`.
* **C32** (partial) Ignored symbols never affect the parse. The rewriter is exact for every action set and the effect of ignored lexemes on a parse is proved for every input. Partial: the run-time theorem is for tables without guards and ignored symbols that the grammar does not use; a symbol that is ignored but shifted somewhere is covered by C32_actions only.
  `C32_actions`, `C32_one`, `C32_others`, `C32_run_partial`, `C32_parse_partial`.
* **C33** (partial) Weak symbols fall back to their strong equivalent. Exact for every action set and declaration. Refuted part: a state that only reduces on the weak symbol does not get the strong symbol's shift (C33_reduce_refuted). The DFA version of add_symbols is not modelled.
  `C33_actions`, `C33_kept`, `C33_strong_partial`, `C33_reduce_refuted`.
* **C34** (proved) Operator precedence resolves shift/reduce conflicts as declared. For every precedence function, and for precedence blocks: exact set of actions, levels and associativity.
  `C34_actions`, `C34_levels`, `C34_conflict`, `C34_others`.
* **C35** (partial) Conflict attributes resolve conflicts as documented. Exact for every action set and attribute assignment. Refuted part: with several reduce actions [conflict=shift] and [conflict=weak reduce] do nothing (C35_several_refuted).
  `C35_actions`, `C35_resolution`, `C35_conflict_partial`, `C35_others`, `C35_several_refuted`.
* **C36** (partial) Conflict detection is sound and complete. Exact for actions as built and for rewriters that only resolve (ignored symbols, precedence, conflict attributes, LR(1)): what is reported is exactly the shift/reduce and reduce/reduce clashes, each once, with exactly the items that cause it. Refuted for weak symbols: a clash on a weak symbol whose actions are copied from a strong symbol is not reported. Missing: the lookahead sources listed with a reduce item are any answer of the source search; order of the report.
  `C36_exact_partial`, `C36_items_partial`, `C36_rewritten_partial`, `C36_resolved_partial`, `C36_ends_partial`, `C36_weak_refuted`.
* **C37** (partial) Accepted input has the reported derivation. If the parser accepts (for any kind of lexeme and of item), the whole input has a parse tree for the language of the initial state, the item on the stack is the value of that tree, and the reported reductions are, in reverse, a rightmost derivation. For tables made from actions that are sound for a built LALR machine (this includes the builder's own actions, and leaves room for weak and ignored symbols); runs that meet undefined behaviour or do not end, and grammars with the end of input in rules, are not covered.
  `C37_rewritten_partial`, `C37_derivation_partial`, `C37_plain_partial`.
* **C38** (partial) The AST reproduces the input. Every node of the tree stands for a rule with a child for each item, and for grammars without guards the leaves are the lexemes in order (without those ignored). Refuted for grammars with guards: a guard adds a leaf for the lexeme that follows it.
  `C38_rewritten_partial`, `C38_shape_partial`, `C38_leaves_partial`, `C38_guard_refuted`.
* **C39** (partial) Parser stacks are persistent and independent. Full for every history in which copies are destroyed in the reverse of the order they were made, with initial_depth >= 2: contents, independence, answers of pop, garbage collection and growth at any point. Refuted otherwise: destroying the original before a copy, destroying a copy out of order (the reference list is never linked backwards), modifying through operator* and initial_depth 1 or 0.
  `C39_contents_partial`, `C39_independent_partial`, `C39_pop_partial`, `C39_destroy_refuted`, `C39_lost_refuted`, `C39_modify_refuted`, `C39_depth_refuted`.
* **C40** (partial) Tentative reductions are exact and side-effect free. Exactness against the parser's own steps proved for every table without guards, diverted states and ignored symbols (weak reductions included); a true answer is always defined; it ends whenever the parser does, hence always for conflict-free parsers. The full statement is false: C40_defined_refuted (the hidden variable 'state' makes a false answer read past an array) and C40_ends_refuted (cyclic grammar). That the state is unchanged holds by construction: the modelled function returns only an answer.
  `C40_exact_partial`, `C40_defined_partial`, `C40_ends_partial`, `C40_conflict_free_partial`, `C40_defined_refuted`, `C40_ends_refuted`.
* **C41** (partial) Guards do not consume input. An answer of check_guard other than -1 is the symbol of the guard, and a prefix of the input matches; using a guard takes no lexemes. Refuted: a guard that matches may be missed when its rules have a shift/reduce conflict.
  `C41_sound_partial`, `C41_input`, `C41_missed_refuted`.
* **C42** (partial) Parser lookahead is shared without loss. Full for every interleaving of copy, destroy, look and next over any number of states, any source (finite or endless), as long as a state only moves on over a symbol that has been read. Refuted: next at the end of the input erases beyond the lookahead (undefined). References into the lookahead vector and negative offsets are not modelled.
  `C42_sees_partial`, `C42_reads_once_partial`, `C42_kept_partial`, `C42_trimmed_partial`, `C42_end_refuted`.
* **C43** (partial) Parsing terminates. Proved for grammars without guards whose FIRST sets are right, actions without rewriters, and no Accept/Reduce clash: for every input the parser accepts or rejects after finitely many steps and meets no undefined behaviour, and it accepts exactly the derivable inputs. C43_cycle_refuted: false in general, since 0 -> t4 | 0 has no reported conflict and the parser reduces 0 -> 0 for ever on the input t4.
  `C43_ends_partial`, `C43_decides_partial`, `C43_cycle_refuted`.
* **C44** (partial) Reference-counted containers. p = p->member (source only in reach through the target) reads freed memory: refuted; proved for all other histories, with items that refer to each other in any way
  `C44_assign_refuted`, `C44_safe_partial`, `C44_lifetime_partial`, `C44_once_partial`, `C44_copy_partial`, `C44_assign_partial`.
* **C45** (partial) Containers compare like their contents. <= and >= compare a container with itself and are always true: refuted; <, > and == proved
  `C45_compare_refuted`, `C45_always_refuted`, `C45_compare_partial`.
* **C46** (proved) String literal dequoting. Every quoted text is dequoted to what it stands for; undefined exactly for the empty string.
  `C46_dequote`, `C46_round_trip`, `C46_unique`, `C46_defined`.
* **C47** (proved) Lookahead search in tables terminates at the symbol's actions. The position is in bounds for any array; in every state of every built table the entries with the symbol are exactly the contiguous run at the position.
  `C47_bounds`, `C47_position`.
* **C48** (partial) Rule attributes stay attached to their rule item. setting attributes on a copied item changes the original too: refuted; proved for all histories that do not give new attributes to a copied item
  `C48_copies_refuted`, `C48_attributes_partial`.
* **C49** (partial) Generated lexer tables drive the same automaton. Refuted in general: every lookup in the last state with transitions, or a later one, reads outside the row pointers. Proved for all earlier states.
  `C49_generated_tables_refuted`, `C49_generated_tables_partial`.
* **C50** (partial) Comparison operators of transitions agree. <= and > refuted; <, >= and == proved, <= and > on equal symbol sets
  `C50_order_refuted`, `C50_order_partial`.
* **C51** (partial) A rule reports its own identifier. Refuted for appending after identification; proved for complete rules shared by any grammars.
  `C51_append_refuted`, `C51_complete_rules_partial`.
* **C52** (proved) Items and rules are totally ordered. Strict total orders consistent with ==, for all items and rules.
  `C52_items`, `C52_rules`.
* **C53** (partial) LR items are totally ordered. Both orders are strict total orders, == is equality, <= and >= agree; the operator > of LR(1) items is refuted (an item is > itself).
  `C53_orders_partial`, `C53_greater_refuted`.
* **C54** (partial) The parser's states are the canonical LR(0) collection. States, transitions, start states and guard states are exactly the canonical LR(0) collection. Missing: grammars with the empty item or the end of input inside rules (the closure is wrong for those, C28); FIRST sets and rule identifiers enter as functions.
  `C54_states_partial`, `C54_transitions_partial`, `C54_initial_partial`, `C54_guards_partial`.
* **C55** (partial) Builder's actions are exactly the LALR(1) actions. The actions of every state of a built machine are proved to be exactly the LALR(1) actions, computed without failure for grammars with finitely many items in which no guard starts with itself; for a guard that starts with itself the computation is shown not to end (refuted). Missing: grammars whose rules contain the empty item or the end of input (C28 shows the closure is wrong there); FIRST sets are taken as grammar::first gives them (C25).
  `C55_exact_partial`, `C55_order`, `C55_accept_partial`, `C55_ends_partial`, `C55_endless_guard_refuted`.
* **C56** (proved) End-of-guard states and strong symbols are looked up correctly. End-of-guard lookup is exact; the strong symbol is one the weak symbol was declared for.
  `C56_end_of_guard`, `C56_strong`.
* **C57** (partial) LR(1) resolution only weakens reductions that the return states tell apart. What the rewriter does is exact for every action set and lookahead source relation, and no action is lost. Missing: that the return states it looks at are all of them. C57_hides_refuted, with the real lookahead sources of C82, shows a grammar with an ambiguous sentence whose conflict disappears because the rewriter looks only at the next symbol of kernel items.
  `C57_hides_refuted`, `C57_actions_partial`, `C57_none_lost`.
* **C58** (partial) Every sentence of a conflict-free language is accepted, with one parse tree. Proved for grammars without guards whose FIRST sets are right, actions without rewriters, and no Accept/Reduce clash (which find_conflicts does not report, see C43): the parser accepts exactly the derivable token streams, leaves the value of the tree, and trees are unique. C58_first_refuted: the full statement is false. For 0 -> 1 2 t6, 1 -> t4, 2 -> 2 t5 | (nothing), FIRST(2) misses t5, no conflict is reported and the sentence t4 t5 t6 is rejected.
  `C58_complete_partial`, `C58_language_partial`, `C58_one_tree_partial`, `C58_first_refuted`.
* **C59** (partial) A parser generated without reported conflicts decides exactly the language. C59_generates_partial: the generator ends. C59_language_partial: without a reported conflict the parser decides the language, ignored symbols taken out. Proved for languages without guards, weak symbols, precedences and conflict attributes, and without LR(1) resolution, whose grammars meet the conditions under which FIRST is right (C25). Also needed: no state both accepts and reduces (C59_clear_end: so if no start symbol is used in a rule), and the numbers fit into the tables. The full statement is refuted: C59_first_refuted (nothing is reported, a sentence is rejected), C59_end_refuted (nothing is reported, the parser never ends). C59_starts: undefined start symbols.
  `C59_generates_partial`, `C59_language_partial`, `C59_clear_end`, `C59_starts`, `C59_first_refuted`, `C59_end_refuted`.
* **C60** (partial) Every conflict that is left is reported once, with the right severity. Proved for languages without weak symbols (C36_weak_refuted shows why) and all rewriters that only take decisive actions away. The full statement on errors is refuted by C60_reduce_refuted: two reductions that clash are only a warning when the symbol can be shifted too. Accept actions are never part of a conflict.
  `C60_reported_partial`, `C60_severity_partial`, `C60_errors_partial`, `C60_reduce_refuted`.
* **C61** (partial) Guards that clash are warned about. Proved for items in the kernel of a state, for all parsers that are made. C61_closure_refuted: guards at the start of a rule are next in items that are not in the kernel, and are never warned about. The symbol named in the warning may be another one of the state, if all guards have been shown with it.
  `C61_warned_partial`, `C61_sound_partial`, `C61_closure_refuted`.
* **C62** (partial) The lexer of a language block recognises what its definitions say. For all definitions that C11 covers: the automaton accepts exactly the words of the definitions, the DFA too, and the lexer cuts every text as specified (C62_cuts_unique: the specification fixes the lexeme). Excluded: regular expressions excluded in C11, symbol sets excluded in C04/C05, automata excluded in C09 when compaction is on. The full statement is refuted: with the default options the tokens (a|b)c and b lose the token b.
  `C62_words_partial`, `C62_dfa_partial`, `C62_lexer_partial`, `C62_cuts_unique`, `C62_compaction_refuted`.
* **C63** (partial) The lexer stage warns exactly about the terminals that can never be produced. Exact characterisation of the reported terminals and their details for all definitions that C11 covers. Refuted in full: a terminal that matches only the empty word is not reported, nor one that compaction loses, and a symbol may be said to clash with itself.
  `C63_warnings_partial`, `C63_empty_word_refuted`, `C63_compaction_refuted`, `C63_self_clash_refuted`.
* **C64** (partial) A weak keyword is lexed as the keyword and still stands for the ordinary symbol. C64_lexer_partial: lexemes and their symbols for any block of C62 whose definitions are weak exactly if their symbols are. C64_table_partial: every entry of the table of weak and strong symbols comes from a clash. C64_parser: what the rewriter does with the table. The full statement is false: with two weak symbols for one text the one with priority can be lost (C64_priority_refuted), the strong symbol is the one with the lowest identifier and not the one with priority (C64_strong_refuted), and a state that uses the weak symbol has no action for symbols split off it (C64_split_refuted).
  `C64_lexer_partial`, `C64_table_partial`, `C64_parser`, `C64_priority_refuted`, `C64_strong_refuted`, `C64_split_refuted`.
* **C65** (partial) The terminals of a language are those its lexer blocks and those of its ancestors define, last word to the descendants. C65_inheritance, C65_errors, C65_symbols, C65_definitions and C65_expressions hold in full for definitions that the parser of language files can produce (written_ok). C65_sets_partial: the weak and ignored sets, if nothing is replaced; C65_replaced_sets_refuted: a replaced terminal stays weak or ignored. C65_loop_refuted: languages that inherit from each other are compiled without end.
  `C65_inheritance`, `C65_loop_refuted`, `C65_errors`, `C65_symbols`, `C65_definitions`, `C65_expressions`, `C65_sets_partial`, `C65_replaced_sets_refuted`.
* **C66** (partial) The grammar of a language means what its productions say. C66_rules_partial and C66_language_partial hold for languages that name no terminals of other languages and whose definitions of terminals are in order; the lexemes carry the symbols of terminals, without weak or ignored ones (these are C33, C64 and C32). C66_other_language_refuted: a missing terminal of another language is compiled to symbol -1 without a report.
  `C66_rules_partial`, `C66_language_partial`, `C66_other_language_refuted`.
* **C67** (partial) The language stage reports exactly the faults of a language. C67_messages_partial lists all messages, C67_errors_partial says when there is no error, C67_unused_partial and C67_used_ignored_partial what is reported or recorded at the end, for languages that name no terminals of other languages. Refuted: an addition to or replacement of a missing nonterminal is an error (C67_addition_refuted), terminals in guards count as used (C67_guards_refuted), terminals whose only use was replaced are reported (C67_replaced_refuted).
  `C67_messages_partial`, `C67_errors_partial`, `C67_unused_partial`, `C67_used_ignored_partial`, `C67_addition_refuted`, `C67_guards_refuted`, `C67_replaced_refuted`.
* **C68** (partial) The lexer and parser made from a language accept exactly its texts. C68_text_partial: under the conditions of C64 and C59 (all stages have enough fuel, the grammar is workable, no conflict is reported, no state both accepts and reduces at the end) the lexer and the parser end on every text and accept exactly the texts that are spelled by terminals for which the start symbol stands, for chains of inheriting languages; C68_parser_partial: the same for the parser alone. C68_nontrivial applies the theorem to a language with a weak, a strong and an ignored terminal. Missing: precedence blocks, conflict attributes, guards and other items that C59 leaves out, texts matched by weak and strong definitions at once, terminals of several kinds. C68_first_refuted: the full statement is false, the parser for S = A B 'c', A = 'a', B = B 'b' | (nothing) is made without any message and rejects "abc".
  `C68_parser_partial`, `C68_text_partial`, `C68_first_refuted`.
* **C69** (partial) The parser tables in generated source are the tables of the parser generator. The object made from the generated arrays answers every query as the tables do (C69_tables, full). Missing: that the source is valid C++ for every language: C69_arrays_refuted shows a grammar without guards and weak symbols whose arrays have empty initialisers.
  `C69_tables`, `C69_entries`, `C69_arrays_partial`, `C69_arrays_refuted`.
* **C70** (partial) Symbols get different, valid constants in generated source. Constants exist and are identifiers for all names; they are distinct if no identifier is another one with an underscore and a number. C70_constants_refuted: a, 'a' and a-1 give the same constant twice.
  `C70_identifier`, `C70_prefix`, `C70_constants_exist`, `C70_constants_partial`, `C70_nonterminals_partial`, `C70_constants_refuted`.
* **C71** (partial) Different items get different syntax tree classes. Class names are unique per item, valid and not reserved, for all sequences of requests (C71_classes, C71_written). Missing: the class of the language itself, C71_language_refuted (language simple-n with a nonterminal simple).
  `C71_classes`, `C71_reserved`, `C71_written`, `C71_language_partial`, `C71_language_refuted`.
* **C72** (partial) The items of a rule get different names and variables. Names of items are distinct and as stated for all rules (C72_names). Missing: the variables: C72_variables_refuted (a-b and a_b in one rule).
  `C72_names`, `C72_own_name`, `C72_variables_refuted`.
* **C73** (partial) Generated syntax tree classes are valid C++. Valid classes proved for languages where rules of a nonterminal differ in more than guards, lists have an item that is not a guard, and variables with equal names have equal classes; otherwise refuted by five witnesses. The names of variables of a class are always different.
  `C73_variables`, `C73_valid_partial`, `C73_functions_partial`, `C73_guards_refuted`, `C73_types_refuted`, `C73_position_refuted`, `C73_content_refuted`, `C73_nested_refuted`.
* **C74** (partial) Generated parser actions build the object that shows the parse tree. Proved for every accepted text unless a guard is passed at the end of the input (refuted there: a null pointer is dereferenced); the languages are those of good_language.
  `C74_tree_partial`, `C74_end_refuted`.
* **C75** (partial) Objects of generated syntax trees know where they begin and end. Proved for objects that do not begin (end) with something empty, in languages without a list nested directly in a list of the same kind; refuted in both cases.
  `C75_start_partial`, `C75_final_partial`, `C75_empty_refuted`, `C75_end_refuted`, `C75_nested_refuted`.
* **C76** (partial) Importing files: every file once, every language found. Proved where two names of one file have the same real path, which the console has to ensure; refuted for consoles that do not (C76_alias_refuted: the console of the tool only makes paths absolute). Ends if there are finitely many names.
  `C76_imports_partial`, `C76_ends`, `C76_alias_refuted`.
* **C77** (partial) Tests in a language file get the right verdicts. Proved for runs that come to their end, with conditions under which they do (C77_ends). Refuted without them: names of tests longer than 54 characters throw (C77_long_name_refuted) and a test for an undefined nonterminal uses a null pointer (C77_undefined_refuted). Reports of the stages that build the language are not modelled.
  `C77_tests_partial`, `C77_ends`, `C77_long_name_refuted`, `C77_undefined_refuted`.
* **C78** (partial) Guards that can match nothing are reported. C78_language_partial: for a chain of languages without replaced definitions, and grammars for which FIRST is right (C25), exactly the guards that can match nothing are reported, once each; C78_collected needs no condition. The full statement is false: a guard of a replaced production is still reported, and mistakes of FIRST make the check miss guards or reject good ones (refuted).
  `C78_collected`, `C78_checks_partial`, `C78_language_partial`, `C78_ends`, `C78_missed_refuted`, `C78_spurious_refuted`, `C78_replaced_refuted`.
* **C79** (partial) The status of the program, and when something is generated. Status, generation and choice are proved in full (C79_status, C79_generates, C79_success, C79_complete) with the stages as arbitrary functions. C79_stops_partial needs that looking for unused symbols reports no error; otherwise the lexer is still built (C79_late_refuted). Whether the generated files could be written is not checked by the program and not modelled.
  `C79_status`, `C79_generates`, `C79_success`, `C79_complete`, `C79_stops_partial`, `C79_late_refuted`.
* **C80** (partial) A definition file holds what the language file says. C80_written_partial: the definition file written down again is the text, for files without redundant notation, references to symbols, languages of start symbols or brackets after parenthesised sequences; C80_faithful_partial: so nothing is lost. C80_productions, C80_modifiers, C80_brackets, C80_strings, C80_parse, C80_last hold for all files. Refuted: a symbol defined by reference gives no definition file and no error; the language of a start symbol and brackets after parenthesised sequences are dropped. The generated lexer and parser of the definition language and positions are not modelled.
  `C80_written_partial`, `C80_faithful_partial`, `C80_productions`, `C80_modifiers`, `C80_brackets`, `C80_strings`, `C80_strings_stand`, `C80_parse`, `C80_last`, `C80_reference_refuted`, `C80_start_refuted`, `C80_brackets_refuted`.
* **C81** (partial) Parse trees respect operator precedence and associativity. C81_right_partial and C81_left_partial: in the tree of every accepted input the operators are grouped as the block says, for each pair of rules x -> a x and x -> x o c. Missing: rules in which two symbols have a level (false there: C81_two_symbols_refuted), operators that are or have weak symbols, grammars with guards, and states where a second rule could be reduced on the operator.
  `C81_right_partial`, `C81_left_partial`, `C81_two_symbols_refuted`.
* **C82** (partial) The sources reported for a lookahead are exactly the items it comes from. The search answers with exactly the source items, ends, stays within bounds, and every lookahead is explained by them. Missing: grammars with the empty item or the end of input inside rules (as in C30).
  `C82_exact_partial`, `C82_explained_partial`, `C82_ends_partial`.
* **C83** (partial) The faults reported for a regular expression are exactly its faults. The full statement is refuted: a quoted bracket counts in the search for the partner of a bracket ((\(a) is reported although nothing is wrong, (a\) is not reported although its bracket is not closed), a closing bracket without partner is never reported, and names of literal expressions are reported as unknown. Proved for all texts without quoted brackets in groups and quoted square brackets in classes: the faults and positions are exact (C83_exact_partial, C83_stage_partial), well formed expressions are accepted. Every text is of the form the theorems talk about (C83_every_text) and the check always ends (C83_ends).
  `C83_exact_refuted`, `C83_unbalanced_refuted`, `C83_literals_refuted`, `C83_exact_partial`, `C83_every_text`, `C83_ends`, `C83_no_false_alarm_partial`, `C83_stage_partial`.
* **C84** (partial) Names of unicode categories stand for the characters of these categories. The full statement is refuted: characters that the Unicode data file gives by first and last only (Chinese characters, Korean syllables and others) are in no category (C84_gaps, C84_letters_refuted), and names with several modifiers run together are accepted (C84_names_refuted). Proved: every documented name stands for exactly the characters of its types in the table, every accepted name starts with a documented one and means the same, no character has two types, the ASCII categories, and (with C11) the automaton for {name} accepts exactly these characters, without case folding and surrogates (C84_token_partial; C84_well_formed for the general case).
  `C84_gaps`, `C84_letters_refuted`, `C84_names_refuted`, `C84_exact_partial`, `C84_accepted`, `C84_one_type`, `C84_ascii`, `C84_well_formed`, `C84_token_partial`.
* **C85** (partial) The texts shown for grammars, parser states, conflicts and trees can be read back. The full statement is refuted: priorities of guards are not shown (C85_exact_refuted), and an empty item at the end of a rule looks like a lookahead called 'empty' (C85_lookahead_refuted). Proved: everything else can be read back, for names as in definition files; symbols are read back as names (C85_same_item_partial: as symbols when names differ). States are shown without closure; the case of items derived by users is not modelled.
  `C85_exact_refuted`, `C85_lookahead_refuted`, `C85_item_partial`, `C85_same_item_partial`, `C85_set_partial`, `C85_rule_partial`, `C85_lr0_partial`, `C85_lr1_partial`, `C85_state_partial`, `C85_action_partial`, `C85_conflict_partial`, `C85_tree_partial`.
* **C86** (partial) The definition read from a text of the bootstrap language says what was written. The full statement is refuted: the start symbols of a parser block come out in the opposite order (C86_start_refuted). Proved: no missing child or lexeme is used (C86_safe), refusal is exact (C86_refused), and everything else is as written (C86_written_partial, C86_one_start_partial). Positions are left out; that the parser makes trees of the grammar is C37.
  `C86_safe`, `C86_refused`, `C86_written_partial`, `C86_one_start_partial`, `C86_start_refuted`.
* **C87** (partial) Copies of definition objects say the same and share nothing. Copies and assignments of all classes are shown to own new objects only and to release the target's parts once, and exactly what a copy says is given. The full claim is refuted: the kinds of items and rules, the flags of lexer blocks and the positions of grammars and test blocks are lost (C87_lost); precedence blocks are copied with their pointers (C87_memory is exact); a top level block assigned one of another kind keeps a released pointer (C87_kinds is exact); a grammar assigned to itself is emptied. Sources that belong to the target are outside the model.
  `C87_destroyed`, `C87_copies_partial`, `C87_assigned_partial`, `C87_memory`, `C87_kinds`, `C87_lost`, `C87_copy_refuted`.
* **C88** (partial) Positions of definition objects span their parts. Shown for everything the reader makes (C88_items, C88_production) and for files over their blocks (C88_file). The full claim is refuted for parts added by hand (an item never gets a later end, a production takes the end of an earlier item as its start, an empty first item is forgotten) and for blocks of parsers and tests, which have no position. That the parts of a syntax tree lie inside it is a hypothesis (see C75).
  `C88_items`, `C88_production`, `C88_in_order_partial`, `C88_file`, `C88_blocks_partial`, `C88_end_kept`, `C88_added_refuted`.
* **C89** (partial) Lexemes, syntax trees, accepting actions, states and conflicts are ordered strictly. Proved in full for positions, lexemes, states and conflicts (C89_lexemes, C89_states). The full statement is refuted for trees (C89_trees_refuted: the node of a lexeme and the node of a nonterminal are each less than the other) and for actions of the library compared with those of languages (C89_actions_refuted). Proved for trees that do not pull in opposite directions, among them trees of one outline and trees without lexemes (C89_trees_partial, C89_fine), and for actions of one kind (C89_actions_partial).
  `C89_lexemes`, `C89_states`, `C89_first`, `C89_trees_partial`, `C89_fine`, `C89_trees_refuted`, `C89_actions_partial`, `C89_importance`, `C89_actions_refuted`.
* **C90** (partial) Parser tables are values and release their memory. Values, safety and the client's arrays are proved for every history (C90_values, C90_client), and the number of arrays left (C90_count). The last part is refuted: copies of objects around a client's arrays, and objects to which one was assigned, never release the arrays they made (C90_released_refuted). Proved without such objects (C90_released_partial). Failure of new is left out.
  `C90_values`, `C90_client`, `C90_count`, `C90_released_partial`, `C90_released_refuted`, `C90_built`.
* **C91** (partial) A lexer object cuts texts by the expressions added before it was first used. C91_history_partial and C91_answered_partial: for expressions that C11 covers, with sets of characters that are compatible (C07) and can be looked up (C13), and texts of 16-bit characters. The full property is refuted (C91_verify_refuted): with [a-df] and [a-cf] verify says yes, then 'e' is read as a match and 'f' is not. C91_given and C91_characters are full.
  `C91_history_partial`, `C91_answered_partial`, `C91_given`, `C91_characters`, `C91_verify_refuted`.
* **C92** (partial) The actions of a state are computed once, with the rewriters then in force. Every history of questions and changes of rewriters is answered with the exact LALR(1) actions of the state, rewritten by the rewriters in force when it was asked for first (C92_answers_partial, C92_ends_partial); with the rewriters set first, no answer depends on the history or the caches (C92_settled_partial). That a rewriter added later is used for all states is refuted (C92_late_refuted). Missing: the grammars excluded in C54 and C55, rewriters that ask the builder themselves.
  `C92_answers_partial`, `C92_settled_partial`, `C92_ends_partial`, `C92_late_refuted`.
* **C93** (partial) The functions of generated source for a start symbol make parsers for this symbol. C93_states: the n-th start symbol starts in state n, which is the state its functions use, exactly if no start symbol is given twice. C93_valid: no function is defined twice exactly if the identifiers of the start symbols differ. C93_names: all names are identifiers and none is the name of a syntax tree class, of the language's class or of another member. C93_language_partial: the parser made for a start symbol accepts exactly the language of this symbol, under the conditions of C59 and with different identifiers. The full property is refuted: with a repeated start symbol a later function starts in the state of another symbol (C93_repeated_refuted), and start symbols a-b and a_b get functions of one name (C93_clash_refuted).
  `C93_states`, `C93_valid`, `C93_names`, `C93_language_partial`, `C93_repeated_refuted`, `C93_clash_refuted`.
* **C94** (partial) The console shows every problem once, in a form that can be read back, and the exit code says whether there was one. C94_shown, C94_exit and C94_options are full: what is on each stream, in which order and in which form (numbers in decimal, counted from 1), and that the exit code is that of the last serious message whatever the options. C94_read_partial: the text on the error stream determines what was shown, for texts without line ends, file names without ': ' and identifiers without a closing bracket; without these conditions it does not (C94_forged_refuted, C94_file_refuted). C94_suppress_partial: suppressing warnings hides just these, if no warning has details and output is not verbose; otherwise refuted (C94_details_refuted, C94_remarks_refuted). That the exit code is that of the worst message is refuted (C94_worst_refuted).
  `C94_shown`, `C94_read_partial`, `C94_exit`, `C94_options`, `C94_suppress_partial`, `C94_details_refuted`, `C94_remarks_refuted`, `C94_worst_refuted`, `C94_forged_refuted`, `C94_file_refuted`.
* **C95** (partial) Formatting JSON with the example program does not change what it says. C95_same, C95_again and C95_one_meaning are full for the language of json.tp: the output is cut by longest match into the tokens of the value that was read, these are the tokens of no other value, and formatting twice is formatting once. That json.tp reads JSON is refuted (C95_comma_refuted): [1,2] is an array of one number '1,2', since the full stop in the expression for fractions stands for every character. Syntax trees are given by the grammar; the parser is the subject of C37, C68 and C74.
  `C95_one_meaning`, `C95_same`, `C95_again`, `C95_comma_refuted`.
* **C96** (partial) The example grammar with a guard accepts exactly a^n b^n c^n. C96_exact_partial: for all lexemes, actions and inputs, some run of the modelled parser with the modelled tables accepts exactly if the input is a^n b^n c^n with n > 0. C96_decides_partial: with 5 |input| + 4 steps every run ends, without undefined behaviour, and accepts exactly these inputs. Missing: 'b'* is a nonterminal in place of an EBNF item, and the tables are those before the rewriting of actions.
  `C96_exact_partial`, `C96_decides_partial`.
* **C97** (partial) The comments of the Ansi-C example are the comments of C. The full property is refuted both ways: /***/ is a comment of C that the lexer does not take (C97_missed_refuted), and two comments with a statement between them are one comment for the lexer if the first ends with two stars (C97_swallows_refuted). C97_comments_partial: among texts without two adjacent stars before the final slash, exactly the comments of C are taken; whatever is taken begins and ends like a comment.
  `C97_comments_partial`, `C97_missed_refuted`, `C97_swallows_refuted`.
* **C98** (partial) The comments of the Pascal example are the comments of Pascal. The full property is refuted both ways: a comment with a star before its closing curly bracket is not taken (C98_missed_refuted), and two comments with a statement between them are one comment for the lexer if the first ends with two stars and a bracket (C98_swallows_refuted). C98_comments_partial: among texts without a star before a star or closing curly bracket, exactly the comments of Pascal are taken; whatever is taken begins and ends like a comment.
  `C98_comments_partial`, `C98_missed_refuted`, `C98_swallows_refuted`.

## What is modelled, and how

| files in `/repo/TameParse` | model | simplifications |
|---|---|---|
| `Dfa/symbol_set`, `range.h` | `SymbolSetModel.v` | signed overflow is tracked by a separate predicate, not by the values; `s |= s` (aliased) is not modelled |
| `Dfa/symbol_map`, `remapped_symbol_map` (de-duplication) | `SymbolMapModel.v` | sets are shared by value, reference counts are in `ContainerModel.v` |
| `Dfa/symbol_table.h`, `hard_coded_symbol_table.h` | `SymbolTableModel.v` | memory as a growing integer array; reads outside it are a distinct outcome |
| `Dfa/ndfa`, `ndfa_transformations`, `state`, `epsilon`, `accept_action`, `remapped_symbol_map` | `NdfaModel.v`, `NdfaReduceModel.v` | accept actions are an abstract type with its order; state numbers are unbounded |
| `Dfa/ndfa_regex`, the builder of `Dfa/ndfa` | `RegexModel.v` | the expression map and the unicode categories are section variables; `check_regex` and `check_expression` are in `RegexCheckModel.v`; `unicode_for_expression` and the table of character types are in `UnicodeModel.v` and `UnicodeTables.v` |
| `Dfa/state_machine.h`, `symbol_translator.h`, the table writer in `Compiler/OutputStages/cplusplus.cpp` (470-575) | `StateMachineModel.v` | |
| `Dfa/lexer`, `basic_lexer`, `character_lexer` | `LexerModel.v` | the symbol stream is the list of the values it delivers |
| `Dfa/position.h`, `Util/stringreader`, `utf8reader`, `unicode`; `dequote_string` in `Compiler` | `TextModel.v`, `CaseTables.v` | positions are unbounded; an input stream is a list of bytes with flags |
| `Util/container.h`, `syntax_ptr.h` | `ContainerModel.v` | an item is marked gone before the destructors of its members run |
| `Dfa/transition.h` | `TransitionProps.v` | |
| `ContextFree/item_set` | `ItemSetModel.v` | no negative identifiers; `1 << 31` is the top bit |
| `ContextFree/item`, `rule`, `grammar`, `standard_items`, `guard`, `ebnf_items`; `Compiler/Data/rule_item_data` | `GrammarModel.v`, `RuleDataModel.v` | items are trees compared by structure; kinds added by users and rule keys are not modelled |
| `ContextFree/terminal_dictionary` | `TermDictModel.v` | symbol numbers are unbounded |
| FIRST and FOLLOW in `ContextFree/item`, `ebnf_items`, `standard_items`, `grammar` | `FirstModel.v`, `FollowModel.v` | FOLLOW walks dependencies in the order of items |
| `Lr/lr_item`, `lr1_item_set` | `LrItemModel.v` | rule identifiers are an injective function (what C23 proves of the grammar) |
| closure functions in `ContextFree/item`, `ebnf_items`, `guard` and `Lr/lalr_builder` | `ClosureModel.v` | FIRST is a section variable; the flag that marks a closure being computed is an arbitrary oracle |
| `Lr/lalr_machine`, `lalr_state` | `MachineModel.v` | keys are kept as item lists; items added to a state after `add_state` are not modelled |
| `Lr/lalr_builder` | `BuilderModel.v`, `ActionModel.v`, `LookSourceModel.v` | the tables of spontaneous lookaheads are made by a second pass over the finished machine; the cache of actions is in `AskModel.v` |
| `Lr/parser_tables` | `TableModel.v` | copy, assignment and destruction are in `TableOwnModel.v`; `std::sort` is any function that sorts; next states are kept modulo 2^24 as in the code |
| `Lr/parser.h`, `parser_state.h`, `ast_parser.h` | `RunModel.v`, `SessionModel.v` | traces and positions of symbols are not modelled; in `RunModel.v` the stack is a list and the lookahead a list, what justifies this is C39 and C42 |
| `Lr/parser_stack.h` | `StackModel.v` | addresses of handles are not reused; the item given to `push` is a value |
| `Lr/action_rewriter`, `weak_symbols`, `ignored_symbols`, `precedence_rewriter`, `lr1_rewriter`; `Compiler/conflict_attribute_rewriter`, `precedence_block_rewriter` | `RewriteModel.v` | rewriters are functions from a symbol and an action set to an action set; items of a precedence block are symbols already looked up; `find_lookahead_source` is a section variable here (modelled in `LookSourceModel.v`) |
| `Compiler/lexer_stage` (`compile`) | `LexStageModel.v` | the checks of expressions are in `RegexCheckModel.v`; messages other than the warnings about unused terminals, and statistics are left out; the map of lists of the lexer data is one list in the order of the loops |
| `Lr/weak_symbols` (`add_symbols` on a DFA) | `WeakLexModel.v` | the weak terminals are given as a test on symbols |
| `Compiler/language_stage`, `Language/language_parser` (lexer blocks, productions) | `LangModel.v`, `GuardCheckModel.v` | positions, file names, attributes of items and message texts are left out; a language block is given as the sequence of its units, productions by their syntax trees |
| `Language/language_parser`, `process` | `SourceModel.v` | positions are left out; the generated lexer and parser of the definition language are a function from texts to syntax trees |
| `Compiler/OutputStages/cplusplus.cpp`: parser tables (600-837), identifiers and class names (80-212, 310-390); `Compiler/output_stage.cpp` (290-511) | `EmitModel.v`, `NamesModel.v` | generated source is modelled as the data it declares, not as text; strings are lists of character codes |
| `Compiler/OutputStages/cplusplus.cpp`: functions of start symbols (868-903) | `StartFunModel.v` | names, initial states and parameter lists; not the text |
| `Compiler/OutputStages/cplusplus.cpp`: syntax tree classes and parser actions (969-1659); `Compiler/output_stage.cpp` (440-524) | `AstGenModel.v` | generated code is modelled as data with the meaning C++ gives it; `add_child` through a shared pointer makes a new list |
| `Compiler/import_stage` | `ImportModel.v` | reading and parsing a file is a function of its name; positions in messages left out |
| `parsetool/main.cpp` | `PipelineModel.v` | stages are functions to severities; display of tables left out |
| `Compiler/test_stage`; exit code of `Compiler/std_console` | `TestModel.v` | languages, lexers and parsers are functions; positions and the reports of other stages left out |
| `Compiler/std_console` (53-176), `boost_console::report_error` | `ConsoleModel.v` | streams are texts; locales, message_stream and the opening of files left out |
| `Lr/conflict` | `ConflictModel.v` | the order of conflicts is in `OrderModel.v` |
| `Language/formatter.cpp` | `FormatModel.v` | naming of symbols is a pair of functions; the closure of a state is not shown; items derived by users left out |
| `Language/bootstrap.cpp` | `BootModel.v` | positions left out; the lexer and the tables of the parser are not built (C14, C37 hold for any) |
| `Language/` definition classes (`ebnf_item` … `definition_file`) | `DefCopyModel.v`, `SpanModel.v` | addresses are counted; a source inside its target, and exceptions of `new`, left out |
| comparisons in `Dfa/lexeme`, `Util/astnode`, `Dfa/accept_action`, `Compiler/lexer_stage`, `Lr/lr_state`, `Lr/conflict` | `OrderModel.v` | the tests whether two objects are one object are left out; children of nodes are not NULL |
| class `Dfa/lexer`, `Dfa/character_lexer` | `LexClassModel.v` | reading a stream to its end is one call; ownership of the lexer inside left out; `wchar_t` has 16 bits as in C13 |
| the memory of `Lr/parser_tables` | `TableOwnModel.v` | the memory is a list of arrays; spare elements left out; exceptions of `new` left out |
| `Examples/JsonPrettyPrinter` | `JsonModel.v` | syntax trees are values; main's reports of syntax errors left out |
| `Examples/ContextSensitive.tp` | `AnbncModel.v` | `'b'*` is a nonterminal with the rules of the item; the tables are those of the builder before rewriting |
| `Examples/AnsiC.tp`: comments | `CommentModel.v` | the other symbols and names of the language left out; surrogates off, case distinguished |
| `Examples/Pascal.tp`: comments | `PascalModel.v` | the other symbols of the language left out; surrogates off |

Not modelled: memory allocation failure, iostream internals, the options and the display of tables of the command line tool,
the boilerplate in the C++ output generator, and the unit tests.

Theorems about the parser as a whole (C37, C38, C41, C43, C54, C55, C58) take the grammar's FIRST sets as a function, so that they hold
whatever that function is (C37, C38, C41, C54, C55) or if it is right (C43, C58, see `right_first`). The Examples beside them use the
modelled FIRST (`first_by`).

## Trusted base

* Coq's kernel (`coqc` 8.16.1, re-checked with `coqchk`).
* `Print Assumptions` below every property theorem says "Closed under the global context": no axiom is used. A listing of all
  constants without bodies in the loaded libraries shows seven entries `Coq.ssr.ssrunder.Under_rel.*`; they are the opaque module of
  the standard library's ssreflect plugin support, loaded with `Lia`/`ZifyBool`, and no theorem depends on them.
* No functor, no module type, no axiom, no kernel switch.
* The reading of the C++ source recorded in the comments of the `…Model.v` files.
* The theorems were tested against wrong programs: see `seeded/LOG.jsonl`.
