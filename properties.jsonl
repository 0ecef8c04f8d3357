{"id": "C01", "title": "Symbol set operations have set semantics", "statement": "Starting from an empty symbol_set, after any sequence of unions (|= range, |= set), exclusions (exclude range, exclude set), intersections (&=) and inversions (invert) with non-empty ranges of non-negative symbols, operator[](x) answers true exactly for the symbols x that the same sequence of mathematical set operations on {0 .. 0x7ffffffe} would leave in the set.", "quantifier": "every sequence of operations, every range, every symbol queried", "why_tests_cant": "the state is an unbounded ordered set of ranges and each operation has many overlap/adjacency cases; tests sample a few of them", "anchors": ["TameParse/Dfa/symbol_set.cpp: symbol_set::operator|=, exclude, invert, operator&=, operator[]", "TameParse/Dfa/range.h: range"]}
{"id": "C02", "title": "Symbol sets are canonical: equality is extensional", "statement": "Two symbol_sets built by operations on non-empty ranges compare equal with == exactly when they contain the same symbols, the ranges a set iterates over are sorted, non-empty, disjoint and not touching, and operator< is a strict total order compatible with that equality (so symbol_set can be used as a map key).", "quantifier": "every pair of sets reachable by any operation sequences", "why_tests_cant": "canonicity is an invariant over every history of merges and splits; map-key use silently breaks if one history violates it", "anchors": ["TameParse/Dfa/symbol_set.cpp: operator==, operator<, operator|=, exclude", "TameParse/Dfa/range.h: range::operator<"]}
{"id": "C03", "title": "Symbol map identifiers are stable, dense and injective", "statement": "symbol_map::identifier_for_symbols gives every distinct symbol_set its own identifier, always returns the same identifier for the same set, never changes an identifier already handed out, hands out 0,1,2,... in order of first request, operator[](id) returns the set that was given that id, and find_identifier_for_symbols returns -1 exactly for sets never added.", "quantifier": "every sequence of requests over every family of symbol sets", "why_tests_cant": "identifier stability is a property of the whole request history", "anchors": ["TameParse/Dfa/symbol_map.cpp: identifier_for_symbols, find_identifier_for_symbols, operator[]"]}
{"id": "C04", "title": "Symbol de-duplication partitions the alphabet", "statement": "remapped_symbol_map::deduplicate applied to any symbol_map produces sets that are pairwise disjoint, and for each original set S, new_symbols(id of S) lists new sets whose union is exactly S.", "quantifier": "every symbol map (any number of overlapping multi-range sets)", "why_tests_cant": "the number of overlap patterns of ranges is unbounded; an overshoot needs a particular combination of gaps", "anchors": ["TameParse/Dfa/remapped_symbol_map.cpp: split, add_set, deduplicate", "TameParse/Dfa/remapped_symbol_map.h: new_symbols"]}
{"id": "C05", "title": "Character to symbol-class lookup is exact", "statement": "symbol_translator::set_for_symbol(c), built from a symbol map whose sets are disjoint, returns the identifier of the set containing c, and symbol_set::null (-1) if no set contains c.", "quantifier": "every disjoint symbol map and every character", "why_tests_cant": "the trie layout depends on 256-aligned boundaries of the ranges added and on the order they are added", "anchors": ["TameParse/Dfa/symbol_translator.h: symbol_translator", "TameParse/Dfa/symbol_table.h: symbol_level::add_range, lookup"]}
{"id": "C06", "title": "Hard-coded lookup tables agree with the dynamic ones", "statement": "The flattened table produced by symbol_table::to_hard_coded_table and read by hard_coded_symbol_table::lookup returns, for every character, the same symbol class as the table it was generated from.", "quantifier": "every symbol table and every character", "why_tests_cant": "generated tables index memory by character; an off-by-one at a level boundary shows up for particular characters only", "anchors": ["TameParse/Dfa/symbol_table.h: to_hard_coded_table", "TameParse/Dfa/hard_coded_symbol_table.h: hcst_lookup_sym"]}
{"id": "C07", "title": "Making symbols unique preserves an NFA's language and actions", "statement": "ndfa::to_ndfa_with_unique_symbols returns an NFA that, on every character string, reaches exactly the same states (hence has the same accept actions) as the original, and whose symbol sets are disjoint, whenever de-duplication yields a partition.", "quantifier": "every NFA and every input string", "why_tests_cant": "quantifies over all automata and all strings", "anchors": ["TameParse/Dfa/ndfa_transformations.cpp: to_ndfa_with_unique_symbols"]}
{"id": "C08", "title": "Determinisation preserves the language and the accept actions", "statement": "ndfa::to_dfa applied to an NFA with disjoint symbol sets returns a deterministic automaton (verify_is_dfa answers true) in which, after reading any string of symbols from an initial state, the accept actions are exactly those of the NFA states reachable by that string (for NFAs without eager accept actions); with eager actions, no longer match is ever extended beyond an eager accept.", "quantifier": "every NFA, every set of initial states, every input string", "why_tests_cant": "subset construction is a worklist algorithm over sets of states; correctness is an inductive statement over strings", "anchors": ["TameParse/Dfa/ndfa_transformations.cpp: to_dfa", "TameParse/Dfa/ndfa.cpp: closure, verify_is_dfa"]}
{"id": "C09", "title": "DFA compaction preserves the language and the accept actions", "statement": "ndfa::to_compact_dfa applied to a DFA returns a DFA that, after any input string, has the same accept actions as the original.", "quantifier": "every DFA and every input string", "why_tests_cant": "partition refinement must distinguish all inequivalent states for all strings", "anchors": ["TameParse/Dfa/ndfa_transformations.cpp: to_compact_dfa"]}
{"id": "C10", "title": "Merging equivalent symbol sets preserves a DFA's language", "statement": "ndfa::to_ndfa_with_merged_symbols applied to a DFA with disjoint symbol sets returns an automaton that reaches the same state as the original after any character string.", "quantifier": "every DFA and every character string", "why_tests_cant": "merging depends on the global pattern of transitions on each symbol", "anchors": ["TameParse/Dfa/ndfa_transformations.cpp: to_ndfa_with_merged_symbols"]}
{"id": "C11", "title": "Regular expressions compile to automata for their language", "statement": "ndfa_regex::add_regex makes the automaton accept exactly the strings matched by the regular expression, with the documented meaning of concatenation, |, *, +, ?, groups, and character classes.", "quantifier": "every regular expression and every string", "why_tests_cant": "quantifies over all regular expressions and strings; compositional errors appear only for particular nestings", "anchors": ["TameParse/Dfa/ndfa_regex.cpp: compile, add_regex", "TameParse/Dfa/ndfa.cpp: builder"]}
{"id": "C12", "title": "Literals accept exactly themselves", "statement": "ndfa_regex::add_literal makes the automaton accept, with the given action, exactly the literal's characters (in case-insensitive mode: exactly the strings that differ from it in case only).", "quantifier": "every literal and every input string", "why_tests_cant": "quantifies over all literals and all candidate inputs", "anchors": ["TameParse/Dfa/ndfa_regex.cpp: add_literal", "TameParse/Dfa/ndfa.cpp: builder::operator>>"]}
{"id": "C13", "title": "Surrogate-pair transitions accept exactly the code points requested", "statement": "With surrogate support enabled, adding a transition on a symbol set accepts exactly the UTF-16 encodings of the set's members (one unit below 0x10000, a surrogate pair for 0x10000..0x10ffff).", "quantifier": "every symbol range and every UTF-16 input", "why_tests_cant": "the split into high/low surrogate rectangles has several boundary cases; a wrong bound affects code points no test enumerates", "anchors": ["TameParse/Dfa/ndfa.cpp: surrogate_pair, add_surrogate_transition, add_with_surrogates"]}
{"id": "C14", "title": "State machine rows: flat and compact tables agree", "statement": "A state_machine built from a DFA moves, for every state and symbol, to the state that the DFA's transition gives (or rejects when there is none), whether it uses flat or compact rows, and run equals run_unsafe for valid states.", "quantifier": "every DFA, state and input symbol/string", "why_tests_cant": "compact rows depend on sorting and binary search over arbitrary transition sets", "anchors": ["TameParse/Dfa/state_machine.h: state_machine_flat_table, state_machine_compact_table, state_machine::run, run_unsafe"]}
{"id": "C15", "title": "Lexing is lossless", "statement": "Reading lexemes from a lexer stream until NULL yields non-empty lexemes whose contents, concatenated in order, are exactly the characters supplied by the input stream; in particular the lexer always terminates and never drops or duplicates a character, even on input it cannot match.", "quantifier": "every lexer (state machine and accept table) and every input text", "why_tests_cant": "lookahead buffering/backtracking interacts with arbitrary inputs", "anchors": ["TameParse/Dfa/basic_lexer.h: dfa_lexer_base::dfa_stream::operator>>"]}
{"id": "C16", "title": "Maximal munch with symbol priority", "statement": "Each lexeme returned is the longest non-empty prefix of the remaining input accepted by the state machine from its start state, its symbol is that of the highest-ranked accept action at that point (the lowest symbol number for ordinary actions), and if no prefix is accepted the lexeme is a single character with symbol -1.", "quantifier": "every lexer and every input text", "why_tests_cant": "the longest match may require unbounded lookahead beyond the last accepting position", "anchors": ["TameParse/Dfa/basic_lexer.h: dfa_stream::operator>>, fill_accept", "TameParse/Dfa/accept_action.h: accept_action::operator<"]}
{"id": "C17", "title": "Lexeme positions are faithful to the text", "statement": "The position attached to a lexeme is the offset, line and column of its first character in the input: the offset counts every preceding character, and the line counts the preceding line breaks (LF, CR, CRLF as one, VT, FF, NEL, LS, PS).", "quantifier": "every input text and every lexeme in it", "why_tests_cant": "depends on every newline combination, also split across lexemes", "anchors": ["TameParse/Dfa/position.h: position_tracker::update_position", "TameParse/Dfa/basic_lexer.h: dfa_stream::operator>>"]}
{"id": "C18", "title": "A lexer reading from a string sees the whole string", "statement": "A lexer created with create_stream_from on a basic_stringreader processes every character of the string, exactly like one reading the same text from a std::istream.", "quantifier": "every string", "why_tests_cant": "an end-of-stream protocol mismatch needs reasoning about the reader and the lexer adapter together", "anchors": ["TameParse/Util/stringreader.h: basic_stringreader::get, good", "TameParse/Dfa/basic_lexer.h: stream_stream::operator>>"]}
{"id": "C19", "title": "UTF-8 decoding", "statement": "utf8reader::get delivers, for every well-formed UTF-8 byte stream, the UTF-16 units of the encoded code points in order, whatever value the caller's variable held before.", "quantifier": "every well-formed byte stream and every prior value of the caller's variable", "why_tests_cant": "the space of byte sequences and caller states is unbounded", "anchors": ["TameParse/Util/utf8reader.cpp: utf8reader::get"]}
{"id": "C20", "title": "Case conversion maps exactly the mapped characters", "statement": "unicode::to_upper / to_lower of a symbol set contains exactly the images of its members under the case mapping table (characters not in the table map to themselves).", "quantifier": "every symbol set and every (sorted, disjoint) mapping table", "why_tests_cant": "ranges can start or end anywhere inside a table entry", "anchors": ["TameParse/Util/unicode.cpp: convert_range, to_upper, to_lower"]}
{"id": "C21", "title": "Item sets behave as finite sets of items", "statement": "item_set insert, erase, merge, contains, size, empty and iteration behave as the corresponding operations on a finite set of grammar items, for every history; insert and merge report true exactly when the set grew; iteration visits each member exactly once in increasing identifier order.", "quantifier": "every history of operations with non-negative identifiers", "why_tests_cant": "bit-level representation with growth; histories are unbounded", "anchors": ["TameParse/ContextFree/item_set.cpp: item_set::insert, erase, merge, contains, next_item_id, count_size"]}
{"id": "C22", "title": "Equal item sets compare equal", "statement": "Two item_sets with the same members compare equal with == and neither is < the other; < is a strict total order on item_sets.", "quantifier": "every pair of item_sets whatever their histories", "why_tests_cant": "depends on the history (capacity) of both operands", "anchors": ["TameParse/ContextFree/item_set.h: item_set::operator==, operator<"]}
{"id": "C23", "title": "Grammar identifiers are stable and injective", "statement": "grammar::id_for_nonterminal, identifier_for_item and identifier_for_rule return the same identifier for equal names/items/rules, different identifiers for different ones, never change an identifier once issued, and item_with_identifier / rule_with_identifier / name_for_nonterminal invert them.", "quantifier": "every interleaving of lookups and registrations", "why_tests_cant": "stability is over all histories", "anchors": ["TameParse/ContextFree/grammar.cpp: id_for_nonterminal, identifier_for_item, item_with_identifier, identifier_for_rule, rule_with_identifier"]}
{"id": "C24", "title": "Terminal dictionary consistency", "statement": "terminal_dictionary: add_symbol gives each new name a fresh symbol; symbol_for_name and name_for_symbol are mutually inverse for added names; split creates a fresh symbol that reports the original as parent, is listed among its children and displays under its name; earlier entries never change.", "quantifier": "every sequence of add_symbol and split calls", "why_tests_cant": "a statement over all call histories", "anchors": ["TameParse/ContextFree/terminal_dictionary.cpp: add_symbol, split", "TameParse/ContextFree/terminal_dictionary.h: name_for_symbol, symbol_for_name, parent_of, children_of"]}
{"id": "C25", "title": "FIRST sets are exact", "statement": "grammar::first(nonterminal) contains a terminal exactly when some sentential form derived from the nonterminal starts with it, and contains the empty item exactly when the nonterminal derives the empty string, independently of the order in which FIRST sets are requested.", "quantifier": "every grammar, every nonterminal, every order of queries", "why_tests_cant": "derivations are unbounded, and memoisation makes the answer depend on the query history", "anchors": ["TameParse/ContextFree/grammar.cpp: grammar::first, first_for_rule", "TameParse/ContextFree/standard_items.cpp: nonterminal::first"]}
{"id": "C26", "title": "FOLLOW sets are exact", "statement": "grammar::follow(nonterminal) contains a terminal exactly when it can immediately follow the nonterminal in a sentential form built from the grammar's rules.", "quantifier": "every grammar, nonterminal and terminal", "why_tests_cant": "a least fixpoint over an unbounded set of derivations", "anchors": ["TameParse/ContextFree/grammar.cpp: grammar::follow, fill_follow"]}
{"id": "C27", "title": "LR(1) item sets merge lookahead per LR(0) item", "statement": "lr1_item_set keeps at most one entry per LR(0) item, whose lookahead is the union of all lookaheads inserted for it; insert returns true exactly when an item is new or its lookahead grew.", "quantifier": "every sequence of insertions", "why_tests_cant": "the closure loops rely on the return value for termination and completeness over every history", "anchors": ["TameParse/Lr/lr1_item_set.h: lr1_item_set::insert"]}
{"id": "C28", "title": "LALR closure", "statement": "The LR(1) closure generated for a state contains the state's kernel items, is closed under expanding the nonterminal after the dot (with lookahead FIRST of what follows), and contains nothing that is not obtained that way.", "quantifier": "every grammar and every kernel", "why_tests_cant": "a least fixpoint; termination and completeness hold over all grammars", "anchors": ["TameParse/Lr/lalr_builder.cpp: generate_closure, create_closure", "TameParse/ContextFree/item.cpp: insert_closure_item, fill_follow", "TameParse/ContextFree/standard_items.cpp: nonterminal::closure"]}
{"id": "C29", "title": "LALR machine states are unique and transitions deterministic", "statement": "lalr_machine::add_state returns the identifier of the existing state exactly when a state with the same kernel exists, otherwise the next identifier; identifiers and transitions already recorded never change; out-of-range queries return an empty result.", "quantifier": "every history of add_state and add_transition calls", "why_tests_cant": "statement over all histories", "anchors": ["TameParse/Lr/lalr_machine.cpp: add_state, add_transition, state_with_id, transitions_for_state", "TameParse/Lr/lr_state.h: lr_state"]}
{"id": "C30", "title": "Lookahead propagation reaches the least fixpoint", "statement": "lalr_builder::complete_lookaheads gives each kernel item exactly the spontaneous lookaheads plus those propagated along the recorded propagation links, and terminates.", "quantifier": "every machine and propagation graph", "why_tests_cant": "worklist fixpoint over arbitrary (cyclic) graphs", "anchors": ["TameParse/Lr/lalr_builder.cpp: complete_lookaheads", "TameParse/Lr/lalr_machine.cpp: add_lookahead"]}
{"id": "C31", "title": "Parser tables answer with every action, in priority order", "statement": "For every state and symbol, scanning from parser_tables::find_terminal / find_nonterminal while the symbol matches visits exactly the actions the builder produced for that state and symbol, guards first, then weak reduces, shifts, and reduces.", "quantifier": "every action set", "why_tests_cant": "binary search over a sorted array built from arbitrary action sets", "anchors": ["TameParse/Lr/parser_tables.cpp: parser_tables::parser_tables, compare_actions, action_score", "TameParse/Lr/parser_tables.h: find_terminal, find_nonterminal"]}
{"id": "C32", "title": "Ignored symbols never affect the parse", "statement": "With the ignored_symbols rewriter every state has, for every ignored symbol without another action, exactly one ignore action, no action for other symbols changes, and at run time an ignored lexeme changes neither the parser stack nor the result.", "quantifier": "every action set and set of ignored symbols, every token stream", "why_tests_cant": "quantifies over all states and all placements of ignored tokens", "anchors": ["TameParse/Lr/ignored_symbols.cpp: rewrite_actions", "TameParse/Lr/parser_state.h: perform_generic"]}
{"id": "C33", "title": "Weak symbols fall back to their strong equivalent", "statement": "With the weak_symbols rewriter, wherever a state has a shift action for a weak symbol it is kept, and wherever a state has no shift for the weak symbol but has actions for its strong equivalent, the weak symbol behaves as the strong one; other symbols keep their actions.", "quantifier": "every action set and every weak-to-strong mapping", "why_tests_cant": "combinatorial in the mix of action kinds in a state", "anchors": ["TameParse/Lr/weak_symbols.cpp: rewrite_actions"]}
{"id": "C34", "title": "Operator precedence resolves shift/reduce conflicts as declared", "statement": "For a shift/reduce conflict where both the rule and the token have a declared precedence, precedence_rewriter keeps only the reduce if the rule binds tighter, only the shift if the token does, follows the declared associativity on a tie (left: reduce, right: shift, non-associative: leaves both), and leaves all other actions untouched.", "quantifier": "every action set and precedence declaration", "why_tests_cant": "all combinations of actions, precedences and associativities", "anchors": ["TameParse/Lr/precedence_rewriter.cpp: rewrite_actions", "TameParse/Compiler/precedence_block_rewriter.cpp"]}
{"id": "C35", "title": "Conflict attributes resolve conflicts as documented", "statement": "For a symbol with both shift and reduce actions, [conflict=shift] removes the reduce actions, [conflict=reduce] removes the shift actions, [conflict=weak reduce] turns the reduce into a weak reduce, and no action for any other symbol changes.", "quantifier": "every action set and attribute assignment", "why_tests_cant": "all combinations of actions and attributes", "anchors": ["TameParse/Compiler/conflict_attribute_rewriter.cpp: rewrite_actions"]}
{"id": "C36", "title": "Conflict detection is sound and complete", "statement": "conflict::find_conflicts reports a symbol in a state exactly when the state's actions for it contain a shift together with a reduce, or two different reduces, not disambiguated by guards or weak reduces.", "quantifier": "every action set", "why_tests_cant": "all combinations of actions", "anchors": ["TameParse/Lr/conflict.cpp: find_conflicts"]}
{"id": "C37", "title": "Accepted input has the reported derivation", "statement": "If a parser running tables built by lalr_builder for a grammar accepts a token stream, the token stream (without ignored tokens) is derivable from the start symbol, and the sequence of reductions performed is a rightmost derivation of it in reverse.", "quantifier": "every grammar, machine and token stream", "why_tests_cant": "soundness over unbounded inputs and stacks", "anchors": ["TameParse/Lr/parser_state.h: process_generic, perform_generic", "TameParse/Lr/parser.h: standard_actions", "TameParse/Lr/lalr_builder.cpp: actions_for_state, complete_parser"]}
{"id": "C38", "title": "The AST reproduces the input", "statement": "When ast_parser accepts, the leaves of the resulting tree, read left to right, are exactly the lexemes shifted from the input in order, and each interior node's children match, in order, the items of the rule recorded in the node.", "quantifier": "every grammar and every accepted token stream", "why_tests_cant": "structural property of unbounded trees", "anchors": ["TameParse/Lr/ast_parser.h: ast_parser_actions", "TameParse/Lr/parser.h: standard_actions::reduce"]}
{"id": "C39", "title": "Parser stacks are persistent and independent", "statement": "Copies of a parser_stack share storage, yet pushing, popping or modifying one copy never changes what any other live copy contains, whatever the order in which copies are made and destroyed and whenever the garbage collector runs.", "quantifier": "every history of create, copy, push, pop and destroy operations over any number of copies", "why_tests_cant": "aliasing plus garbage collection at unpredictable points; quantifies over all schedules of operations", "anchors": ["TameParse/Lr/parser_stack.h: parser_stack, collect, get_new, push, pop"]}
{"id": "C40", "title": "Tentative reductions are exact and side-effect free", "statement": "can_reduce(symbol) answers true exactly when performing the reductions from the current state would eventually let the symbol be shifted (or accepted), always terminates with a defined result, and does not change the parser state.", "quantifier": "every table, stack and symbol", "why_tests_cant": "simulates unboundedly many reductions on a virtual stack", "anchors": ["TameParse/Lr/parser_state.h: can_reduce, fake_reduce"]}
{"id": "C41", "title": "Guards do not consume input", "statement": "Checking a guard leaves the parser's stack and remaining input unchanged; the guard symbol is used exactly when a prefix of the remaining input matches the guard's rule.", "quantifier": "every table, stack, lookahead and guard", "why_tests_cant": "unbounded lookahead with nested parsing", "anchors": ["TameParse/Lr/parser_state.h: check_guard, process_guard", "TameParse/Lr/parser.h: guard_actions"]}
{"id": "C42", "title": "Parser lookahead is shared without loss", "statement": "Several parser states running over one token source each see the same token sequence from their own position, each token is read from the source exactly once, and a token is discarded only when no live state can still need it.", "quantifier": "every interleaving of next/look/destroy over any number of states", "why_tests_cant": "schedules are unbounded", "anchors": ["TameParse/Lr/parser_state.h: look, next, trim_lookahead"]}
{"id": "C43", "title": "Parsing terminates", "statement": "For tables built from a grammar with no reported conflicts, parser::parse terminates on every finite token stream.", "quantifier": "every conflict-free grammar and finite token stream", "why_tests_cant": "reduction loops are only reachable for cyclic grammars that no test happens to include", "anchors": ["TameParse/Lr/parser.h: parser::state::parse", "TameParse/Lr/parser_state.h: process_generic", "TameParse/Lr/conflict.cpp: find_conflicts"]}
{"id": "C44", "title": "Reference-counted containers", "statement": "util::container deletes its referenced object exactly once, when the last container referencing it goes away, never uses it afterwards, and copies always observe the same value.", "quantifier": "every history of copies, assignments and destructions", "why_tests_cant": "ownership over all histories", "anchors": ["TameParse/Util/container.h: container", "TameParse/Util/syntax_ptr.h: syntax_ptr"]}
{"id": "C45", "title": "Containers compare like their contents", "statement": "The comparison operators of util::container order containers exactly as their contents are ordered (a <= b exactly when not b < a, a >= b exactly when not a < b).", "quantifier": "every pair of contents", "why_tests_cant": "must hold for all values of all element types", "anchors": ["TameParse/Util/container.h: operator<, operator<=, operator>, operator>="]}
{"id": "C46", "title": "String literal dequoting", "statement": "process::dequote_string returns the characters between the quotes with escapes replaced; for every string s, dequoting the quoted form of s gives back s.", "quantifier": "every string", "why_tests_cant": "all placements of escapes and quotes", "anchors": ["TameParse/Language/process.cpp: process::dequote_string"]}
{"id": "C47", "title": "Lookahead search in tables terminates at the symbol's actions", "statement": "find_terminal returns a position such that no earlier entry of the state has that symbol and the following entries with that symbol are contiguous; if there is no action for the symbol the caller's scan stops immediately without reading outside the state's action array.", "quantifier": "every table, state and symbol (including symbols larger than all in the table)", "why_tests_cant": "memory safety over all tables and symbols", "anchors": ["TameParse/Lr/parser_tables.h: find_action, find_terminal, find_nonterminal"]}
{"id": "C48", "title": "Rule attributes stay attached to their rule item", "statement": "rule_item_data: after set_attributes on a rule item, attributes_for on that item returns what was last set for it, other items' attributes are unaffected, and items never given attributes report the defaults.", "quantifier": "every history of set_attributes calls", "why_tests_cant": "statement over all histories and key assignments", "anchors": ["TameParse/Compiler/Data/rule_item_data.cpp: set_attributes, attributes_for"]}
{"id": "C49", "title": "Generated lexer tables drive the same automaton", "statement": "The lexer tables written into generated C++ source, run through state_machine_tables, move from every state on every symbol exactly as the DFA they were generated from, and never read outside the arrays.", "quantifier": "every DFA, state and symbol", "why_tests_cant": "an out-of-bounds read of one element is invisible unless the neighbouring memory happens to differ", "anchors": ["TameParse/Compiler/OutputStages/cplusplus.cpp: source_lexer_state_machine", "TameParse/Compiler/output_stage.cpp: output_stage::begin_lexer_state_machine, define_lexer_tables", "TameParse/Dfa/state_machine.h: state_machine_tables::run_unsafe"]}
{"id": "C50", "title": "Comparison operators of transitions agree", "statement": "The operators <, <=, >, >=, == and != of transitions describe one total order: a <= b holds exactly when a < b or a == b, and a > b exactly when b < a.", "quantifier": "all pairs of transitions", "why_tests_cant": "an inconsistent pair of operators is only visible for pairs whose symbol sets and states are ordered in opposite ways", "anchors": ["TameParse/Dfa/transition.h: transition::operator>, operator>=", "TameParse/Dfa/transition.cpp: transition::operator<, operator<=, operator=="]}
{"id": "C51", "title": "A rule reports its own identifier", "statement": "rule::identifier(grammar) is the identifier the grammar gives to the rule's present contents, whichever grammars it was asked for before and whatever was registered in between.", "quantifier": "every rule and every interleaving of identifier calls, other grammar calls and changes to the rule", "why_tests_cant": "the cached answer has to be right in every history", "anchors": ["TameParse/ContextFree/rule.cpp: rule::identifier, operator<<", "TameParse/ContextFree/grammar.cpp: identifier_for_rule"]}
{"id": "C52", "title": "Items and rules are totally ordered", "statement": "operator< of items and of rules is a strict total order and agrees with operator==: exactly one of a<b, a==b, b<a holds, < is transitive, and == holds exactly for items or rules of the same structure (so maps and sets keyed by them behave as finite maps).", "quantifier": "all items, including nested EBNF items and guards, and all rules", "why_tests_cant": "an order law ranges over all triples of arbitrarily nested items", "anchors": ["TameParse/ContextFree/item.cpp: item::compare", "TameParse/ContextFree/ebnf_items.cpp: operator<, operator==", "TameParse/ContextFree/guard.cpp: operator<, operator==", "TameParse/ContextFree/rule.cpp: compare_items, operator<, operator=="]}
{"id": "C53", "title": "LR items are totally ordered", "statement": "The < of LR(0) items and of LR(1) items is a strict total order, == is equality of rule, offset and lookahead, and >, <= and >= are the relations that < and == determine.", "quantifier": "every pair and triple of LR items of one grammar", "why_tests_cant": "items are the keys of the maps and sets from which every parser is built, for every grammar", "anchors": ["TameParse/Lr/lr_item.cpp: lr0_item::operator<, lr0_item::operator==, lr1_item::operator<, lr1_item::operator==", "TameParse/Lr/lr_item.h: comparison operators"]}
{"id": "C54", "title": "The parser's states are the canonical LR(0) collection", "statement": "For every grammar and every list of languages, completing a parser builder yields exactly the states of the canonical collection of LR(0) item sets: one state per reachable kernel, none missing, none duplicated, none unreachable; from each state there is exactly one transition per symbol that can come next, leading to the state holding the items advanced over that symbol; the first language starts in state 0; and each guard that can come next has its own start state.", "quantifier": "all grammars (without the empty item or end of input inside rules), all languages, all closure caches left by earlier calls", "why_tests_cant": "A test compares a handful of grammars; a lost or merged state or a transition to the wrong state only shows on grammars that exercise that item combination.", "anchors": ["TameParse/Lr/lalr_builder.cpp: add_initial_state, complete_parser", "TameParse/Lr/lalr_machine.cpp: add_state, add_transition"]}
{"id": "C55", "title": "Builder's actions are exactly the LALR(1) actions", "statement": "lalr_builder::actions_for_state, before rewriting, returns for every state exactly: a shift for every terminal and guard transition, a goto for every other transition, a reduce (accept, for the rule of a language or guard) for every complete item of the closure and every terminal, end or guard in its LALR(1) lookahead, and a guard check for every terminal that can start a guard that is shifted or looked for; accept happens only at the end of input (languages) or end of guard (guards); the computation ends.", "quantifier": "every grammar and every state of the machine built for it", "why_tests_cant": "The set of grammars and machines is unbounded; a test shows the actions of a few states.", "anchors": ["TameParse/Lr/lalr_builder.cpp: actions_for_state, add_guard, generate_closure", "TameParse/Lr/lr_action.h: operator<", "TameParse/ContextFree/guard.cpp: initial"]}
{"id": "C56", "title": "End-of-guard states and strong symbols are looked up correctly", "statement": "parser_tables::has_end_of_guard answers true exactly for the states that have an action for the end of a guard, and strong_for_weak answers with a strong symbol the weak symbol was declared for, or with the symbol itself when it is not weak.", "quantifier": "every action set, every set of weak symbols, every state and symbol", "why_tests_cant": "binary search and linear search over arrays of any size built from arbitrary action sets", "anchors": ["TameParse/Lr/parser_tables.cpp: parser_tables::parser_tables", "TameParse/Lr/parser_tables.h: has_end_of_guard, strong_for_weak"]}
{"id": "C57", "title": "LR(1) resolution only weakens reductions that the return states tell apart", "statement": "lr1_rewriter changes the actions of a state only for terminals with two or more reductions for which no state can be returned to by two of the completed items; there it keeps the first reduction and turns the others into weak reductions. No action is lost and nothing else changes.", "quantifier": "every action set, every assignment of items and lookaheads to states, every lookahead source relation", "why_tests_cant": "the effect depends on the lookahead sources of every pair of reductions in every state of every grammar", "anchors": ["TameParse/Lr/lr1_rewriter.cpp: rewrite_actions"]}
{"id": "C58", "title": "Every sentence of a conflict-free language is accepted, with one parse tree", "statement": "For tables built by lalr_builder from a grammar for which no conflict is reported, the parser accepts every token stream that the start symbol of the language derives, leaves the value of its parse tree on the stack, and no token stream has two different parse trees.", "quantifier": "every conflict-free grammar, machine and token stream", "why_tests_cant": "completeness over unboundedly many sentences; a wrong lookahead set loses sentences silently", "anchors": ["TameParse/Lr/lalr_builder.cpp: complete_lookaheads, actions_for_state", "TameParse/Lr/conflict.cpp: find_conflicts", "TameParse/Lr/parser_state.h: process_generic", "TameParse/ContextFree/grammar.cpp: first"]}
{"id": "C59", "title": "A parser generated without reported conflicts decides exactly the language", "statement": "When the parser generator is run on a grammar with defined start symbols, it finishes. If it reports no conflict, then for each start symbol the parser that it produced finishes on every input, and accepts exactly those inputs that, once the ignored symbols are taken out, can be derived from the start symbol.", "quantifier": "all grammars, lists of start symbols, sets of ignored symbols, options and input texts", "why_tests_cant": "Tests run the generator on a few grammars and a few inputs each; that a clean report means a right parser ranges over all grammars and all inputs.", "anchors": ["TameParse/Compiler/lr_parser_stage.cpp: lr_parser_stage::compile", "TameParse/Lr/lalr_builder.cpp: complete_parser, actions_for_state", "TameParse/Lr/conflict.cpp: find_conflicts", "TameParse/Lr/parser_tables.cpp: parser_tables", "TameParse/Lr/parser.h: parser::state::parse", "TameParse/Lr/ignored_symbols.cpp: modify_actions"]}
{"id": "C60", "title": "Every conflict that is left is reported once, with the right severity", "statement": "After the rewriters have resolved what they can, the generator reports exactly one warning or error for each state and symbol for which more than one shift or reduction is left, and none for any other. With no-conflicts each such report is an error; without it, a clash of two reductions is an error unless reduce conflicts are allowed, and a clash with a shift is a warning.", "quantifier": "all grammars, precedence, conflict attribute and LR(1) rewriters, ignored symbols and options", "why_tests_cant": "Missing reports only show on grammars nobody has tried; the tests compare the messages of a few grammars.", "anchors": ["TameParse/Compiler/lr_parser_stage.cpp: lr_parser_stage::compile (lines 332-441)", "TameParse/Lr/conflict.cpp: conflict::find_conflicts"]}
{"id": "C61", "title": "Guards that clash are warned about", "statement": "If in some state two different guards are checked for the same symbol, and at least one of them is not marked can-clash, the generator warns about that state and shows the items with the guards; it gives no such warning for a state where guards do not clash.", "quantifier": "all grammars with guards, all can-clash attributes, all states and symbols of the parser", "why_tests_cant": "Which guards meet in a state depends on the whole grammar; tests see the few states of their own grammars.", "anchors": ["TameParse/Compiler/lr_parser_stage.cpp: warn_clashing_guards (lines 93-206)"]}
{"id": "C62", "title": "The lexer of a language block recognises what its definitions say", "statement": "For every set of symbol definitions of a language block (regular expressions and literals, each with its case option, kind of unit and strength), the lexer that the lexer stage builds cuts every text into lexemes so that each lexeme is the longest prefix of the remaining text that some definition matches, with the symbol of the definition that has the highest priority (weak before strong, then by kind of unit, then by order), all ignored symbols that the grammar does not use counting as one; a character where no definition matches becomes a lexeme without symbol. This holds whatever the options for compaction and merging are.", "quantifier": "all lists of definitions, all defined names, all sets of ignored symbols used by the grammar, all option settings, all texts", "why_tests_cant": "Tests compile a handful of languages; the claim is about every combination of definitions, and errors of a single construction or optimisation step show only for particular overlaps of definitions.", "anchors": ["TameParse/Compiler/lexer_stage.cpp: lexer_stage::compile", "TameParse/Compiler/lexer_item.h: lexer_item", "TameParse/Dfa/ndfa_regex.cpp: add_literal, add_regex", "TameParse/Dfa/ndfa.cpp: to_dfa, to_compact_dfa, to_ndfa_with_merged_symbols"]}
{"id": "C63", "title": "The lexer stage warns exactly about the terminals that can never be produced", "statement": "For every language block the lexer stage reports a terminal as never generated if and only if the terminal is not ignored and no text can produce a lexeme with it; the details of the report name the symbols with which it clashes, that is, other symbols which win against it on some text, and there are details exactly if the terminal matches some text at all.", "quantifier": "all lists of definitions, all terminal counts and ignored sets", "why_tests_cant": "The claim says that no text at all produces the terminal, which no finite set of texts can show, and that no other terminal has this property.", "anchors": ["TameParse/Compiler/lexer_stage.cpp: lexer_stage::compile (lines 434-503)"]}
{"id": "C64", "title": "A weak keyword is lexed as the keyword and still stands for the ordinary symbol", "statement": "For every language block with weak symbols: the lexer cuts the same lexemes as without weak symbols; a text that matches only weak or only strong definitions gets the symbol it would get anyway; a text that matches a weak and a strong definition gets the weak symbol that has priority, or one split off it, and a parser state that has no use for that symbol does what it does for the strong symbol the text would otherwise have, while a state that uses the weak symbol takes it as such.", "quantifier": "all lists of weak and strong definitions, all texts, all action sets of parser states", "why_tests_cant": "Whether a symbol has to be split depends on all clashes of the whole automaton and the order of its states; tests cover a few keywords that clash with one identifier.", "anchors": ["TameParse/Lr/weak_symbols.cpp: weak_symbols::add_symbols(ndfa&, const item_set&, terminal_dictionary&), rewrite_actions", "TameParse/Compiler/lexer_stage.cpp: lexer_stage::compile (lines 505-516)", "TameParse/ContextFree/terminal_dictionary.cpp: split"]}
{"id": "C65", "title": "The terminals of a language are those its lexer blocks and those of its ancestors define, last word to the descendants", "statement": "For every language and the languages it inherits from: compiling it gives each terminal one symbol, numbered in the order of first definitions; the lexer receives for each terminal exactly the definitions in force (those not replaced by a later 'replace'), with the text, the case option, the kind of block and the weakness of their own blocks; the same holds for lexer-symbols; the sets of weak and of ignored symbols hold the terminals with such a definition in force; and an error is reported exactly if some definition uses '=' for a known name, 'replace' or '|=' for an unknown one, or '|=' with another kind of block.", "quantifier": "all chains of inheriting languages, all orders and kinds of lexer blocks", "why_tests_cant": "The order of the passes over the blocks decides about symbols and errors, and replacements interact across any number of languages; tests cover one or two blocks.", "anchors": ["TameParse/Compiler/language_stage.cpp: language_stage::compile (lines 90-370), add_ebnf_lexer_items, compile_item", "TameParse/Language/language_parser.cpp: definition_for (lexer blocks)"]}
{"id": "C66", "title": "The grammar of a language means what its productions say", "statement": "For every language and the languages it inherits from: the nonterminals of the compiled grammar are those defined or mentioned; the rules of each are its productions in force, in order; and a sequence of lexemes has a parse tree for a nonterminal exactly if the productions as written (with '?', '*', '+', brackets, alternatives and guards) let the nonterminal stand for these terminals.", "quantifier": "all chains of inheriting languages, all productions of any nesting, all sequences of lexemes with any continuation", "why_tests_cant": "The claim equates two infinite sets of words for productions of any depth; the translation splices bracketed lists, nests alternatives to the right and repeats to the left, which a few parsed samples do not settle.", "anchors": ["TameParse/Compiler/language_stage.cpp: language_stage::compile (lines 375-445), compile_item", "TameParse/Language/language_parser.cpp: definition_for (lines 232-502)"]}
{"id": "C67", "title": "The language stage reports exactly the faults of a language", "statement": "For every language and the languages it inherits from: there is an error exactly if a definition of a terminal is not in order, a nonterminal with productions is defined again with '=', a nonterminal that is mentioned has no productions, an addition or replacement names a nonterminal that does not exist, or a precedence is given to something that is not a terminal; there is a warning for each terminal that is only mentioned by name; the terminals that no production uses are reported at the end, each by its name; and an ignored terminal that a production uses is recorded as used.", "quantifier": "all chains of inheriting languages", "why_tests_cant": "Absence of a report has to be shown for every correct language and presence for every faulty one, in whichever language of the chain the fault is.", "anchors": ["TameParse/Compiler/language_stage.cpp: language_stage::compile (lines 375-566), process_rule_symbols, report_unused_symbols", "TameParse/Language/nonterminal_definition.h: nonterminal_definition::type"]}
{"id": "C68", "title": "The lexer and parser made from a language accept exactly its texts", "statement": "For every chain of inheriting languages that compiles without errors and without conflicts, and every text: the generated lexer and the generated parser end, the lexemes put together are the text, and the parser accepts exactly if the text can be cut, by longest words, into words that are read as terminals (keywords before other symbols before ignored ones, then the terminal defined first), with ignored words between them, so that the start symbol stands for the sequence of these terminals according to the productions as written.", "quantifier": "all language files, all start symbols and all texts of any length", "why_tests_cant": "It joins every stage of the compiler (names, terminals, automata, weak symbols, item sets, tables, the parser's loop); a test sees one grammar and one text at a time, while a mistake at any joint affects only some languages.", "anchors": ["TameParse/Compiler/language_stage.cpp: language_stage::compile", "TameParse/Compiler/lexer_stage.cpp: lexer_stage::compile", "TameParse/Compiler/lr_parser_stage.cpp: lr_parser_stage::compile", "TameParse/Lr/parser.h: parser::state::parse", "TameParse/Dfa/lexer.h: lexer"]}
{"id": "C69", "title": "The parser tables in generated source are the tables of the parser generator", "statement": "For every parser the generator builds, the object that the generated C++ source makes from its arrays answers every question (terminal and nonterminal actions of a state, end-of-guard actions, strong symbols of a weak one, rules) as the in-memory tables do, and the source is valid C++.", "quantifier": "all grammars, all states, symbols and rules", "why_tests_cant": "The arrays are flattened rows with computed offsets; a wrong offset or count shows only for states and symbols behind it, and generated parsers are tested with one or two grammars.", "anchors": ["TameParse/Compiler/OutputStages/cplusplus.cpp: output_cplusplus::header_parser_tables / source_parser_tables", "TameParse/Lr/parser_tables.cpp: parser_tables(int, int, int, ...)", "TameParse/Lr/parser_tables.h: find_terminal, find_nonterminal, has_end_of_guard, rule"]}
{"id": "C70", "title": "Symbols get different, valid constants in generated source", "statement": "For every set of terminal or nonterminal names the generated source declares one constant for each, with a name that is a C++ identifier, and no two symbols get the same name.", "quantifier": "all lists of symbol names", "why_tests_cant": "Names are made by replacing characters and adding numbers; whether two collide depends on the combination of all names of a language.", "anchors": ["TameParse/Compiler/OutputStages/cplusplus.cpp: get_identifier, output_cplusplus::header_terminal_symbols, header_nonterminal_symbols"]}
{"id": "C71", "title": "Different items get different syntax tree classes", "statement": "For every language and every order in which class names are asked for, items of the grammar get valid class names, the same item always the same and different items different ones; none clashes with a word of C++, with the classes of the library or with the class of the language.", "quantifier": "all grammars, all sequences of requests", "why_tests_cant": "Names are made on demand and depend on the names given out before.", "anchors": ["TameParse/Compiler/OutputStages/cplusplus.cpp: output_cplusplus::class_name_for_item", "TameParse/Compiler/output_stage.cpp: output_stage::name_for_item"]}
{"id": "C72", "title": "The items of a rule get different names and variables", "statement": "For every rule, each item gets a name that is not empty, is the one given in the language or the item's own name with at most a number added, and differs from those of the other items of the rule; the variables made from these names differ too.", "quantifier": "all rules of any length with any given names", "why_tests_cant": "Whether numbers added to one name give another name depends on all the names in the rule.", "anchors": ["TameParse/Compiler/output_stage.cpp: output_stage::generate_ast_rules, name_for_item", "TameParse/Compiler/OutputStages/cplusplus.cpp: get_identifier"]}
{"id": "C73", "title": "Generated syntax tree classes are valid C++", "statement": "For every language the class generated for each nonterminal and each EBNF item is valid C++: its members have different names, none has the name of the class, no two constructors have the same parameters, each constructor initialises declared variables with values of their class, and the position functions only use what is declared.", "quantifier": "all grammars, all items, all names given in the language", "why_tests_cant": "Clashes depend on combinations of rules, guards, repetitions and names; a test compiles the classes of one language.", "anchors": ["TameParse/Compiler/OutputStages/cplusplus.cpp: output_cplusplus::header_ast_class_declarations, source_ast_class_constructors", "TameParse/Compiler/output_stage.cpp: output_stage::generate_ast_rules"]}
{"id": "C74", "title": "Generated parser actions build the object that shows the parse tree", "statement": "For every language and every text the parser accepts, the generated shift and reduce functions make an object tree in which every lexeme and every nonterminal of the parse tree has its object, in the variable of its item, with the rule it was made by; the elements of a repetition are in a list in the order of the text; no undefined behaviour occurs.", "quantifier": "all grammars, all texts, all parse trees", "why_tests_cant": "Indices into the stack of values and casts depend on the shape of the rule; deep and long trees are unbounded.", "anchors": ["TameParse/Compiler/OutputStages/cplusplus.cpp: output_cplusplus::source_shift_actions, source_reduce_actions", "TameParse/Lr/parser.h: parser_actions"]}
{"id": "C75", "title": "Objects of generated syntax trees know where they begin and end", "statement": "For every object of a generated syntax tree, pos() is the position of the first lexeme of its text (or of what follows if it has none) and final_pos() the position where its last lexeme ends.", "quantifier": "all grammars, all texts, all objects", "why_tests_cant": "Empty items, repetitions and guards at the beginning or end change which variable is asked; they nest without bound.", "anchors": ["TameParse/Compiler/OutputStages/cplusplus.cpp: output_cplusplus::source_ast_position_functions"]}
{"id": "C76", "title": "Importing files: every file once, every language found", "statement": "Compiling a language file brings in exactly the files that it imports, directly or through other files, and reads each of them once; afterwards a language is found by its name if and only if one of these files defines it, the file reported for it is one that defines it, and a language that is defined more than once is reported once for each further definition. This ends, also for files that import each other.", "quantifier": "all sets of files, all import relations between them (with cycles, missing files and several names for a file), all language names", "why_tests_cant": "Import graphs are unbounded and may have cycles; tests only see a few of them.", "anchors": ["TameParse/Compiler/import_stage.cpp: import_stage::compile", "TameParse/Compiler/import_stage.h: import_stage::language_with_name, import_stage::file_with_language"]}
{"id": "C77", "title": "Tests in a language file get the right verdicts", "statement": "Running the tests of a language file shows one line for each test whose text is available, saying ok exactly if the nonterminal accepts the text (for tests that should not match: does not accept it); the lines of a block have different names, its summary counts the tests that passed and all that were run, and an error is reported (and the exit code is not zero) exactly if there are no test blocks, a language is not found, a file of a test is missing or a test fails.", "quantifier": "all definition files, all test blocks and tests, all languages, all texts and files", "why_tests_cant": "The verdicts, counts and names depend on the whole history of tests in a block, which is unbounded.", "anchors": ["TameParse/Compiler/test_stage.cpp: test_stage::compile, test_stage::get_parser", "TameParse/Compiler/std_console.cpp: std_console::report_error, std_console::exit_code"]}
{"id": "C78", "title": "Guards that can match nothing are reported", "statement": "Compiling a language reports every guard in its productions, also inside repetitions and other guards and in the languages it inherits from, that can match the empty sequence: as an error if there is something in it, and as a warning if it is written as empty and that was not allowed; no other guard is reported and no guard twice.", "quantifier": "all languages and chains of inheritance, all guards, both settings of the option", "why_tests_cant": "Whether a guard can match nothing depends on the whole grammar, and guards nest without bound.", "anchors": ["TameParse/Compiler/language_stage.cpp: language_stage::compile, compile_item, export_to", "TameParse/ContextFree/grammar.cpp: grammar::first_for_rule"]}
{"id": "C79", "title": "The status of the program, and when something is generated", "statement": "The program returns zero exactly if no error was reported, and otherwise the severity of the last one; nothing is generated unless every stage before ended without an error, and then for the language, class, start symbols and target that the options, the only parser block or the only language of the file determine; if all stages succeed and this is determined, it is generated, unless only tests were asked for; no stage begins after an error.", "quantifier": "all options, all files, whatever the stages report or throw", "why_tests_cant": "The combinations of options, blocks of the file and outcomes of the stages are unbounded.", "anchors": ["parsetool/main.cpp: main", "parsetool/boost_console.cpp: boost_console::get_option, can_start", "TameParse/Compiler/std_console.cpp: std_console::report_error, std_console::exit_code"]}
{"id": "C80", "title": "A definition file holds what the language file says", "statement": "For every text of the right syntax, the definition file made from it has the same languages, imports, parsers and tests in the same order, with the same symbol definitions and modifiers, nonterminals, productions, items, names and conflict actions in brackets, levels of precedence, start symbols and test strings, so that two texts with the same definition file say the same; a text that is parsed without an error has a definition file; a parser object that is used again forgets the text before.", "quantifier": "all syntax trees of the definition language, all sequences of texts given to one parser object", "why_tests_cant": "The texts are unbounded in size and nesting; that nothing is lost is a statement about pairs of texts.", "anchors": ["TameParse/Language/language_parser.cpp: definition_for, add_lexeme_definition, add_test_definition, modify_attribute, get_errors, language_parser::parse", "TameParse/Language/process.cpp: process::dequote_string", "TameParse/Language/definition.tp"]}
{"id": "C81", "title": "Parse trees respect operator precedence and associativity", "statement": "When a language file declares the precedence of operators and a generated parser accepts an input, the syntax tree it builds groups operators as declared. If a rule ends in a nonterminal after an operator, and another operator of the same nonterminal follows in the input, then: where the operator on the right binds more tightly, or both are on one right-associative level, the phrase of the left operator never stops just before the right operator; where the operator on the left binds more tightly, or both are on one left-associative level, the last operand of the left operator never is a phrase of the right operator. Ignored symbols may be anywhere between.", "quantifier": "All grammars without guards, all precedence blocks, all pairs of operator rules where each rule names one operator of the block, all ignored symbols and weak symbols that are not the operators themselves, and all inputs the parser accepts, of any length and nesting.", "why_tests_cant": "Tests parse a few expressions; the claim is about every accepted text, and rests on how the conflict resolution in each state of the machine combines over a whole derivation.", "anchors": ["TameParse/Lr/precedence_rewriter.cpp: precedence_rewriter::rewrite_actions", "TameParse/Compiler/lr_parser_stage.cpp: lr_parser_stage::compile", "TameParse/Lr/parser_state.h: parser::state::process_generic", "TameParse/Lr/ast_parser.h: ast_parser_actions"]}
{"id": "C82", "title": "The sources reported for a lookahead are exactly the items it comes from", "statement": "lalr_builder::find_lookahead_source answers, for an item of a state and one of its lookaheads, with exactly the kernel items that the lookahead comes from: those that give it to the item, or to an item it reaches the item by way of, and those that pass it on. It ends for every automaton. Every lookahead is explained: either the item has it from the start, or the sources include an item that has it from the start or gives it by itself. The conflict reports and the LR(1) resolver rely on this answer.", "quantifier": "every grammar, every automaton built from it, every state, item and lookahead", "why_tests_cant": "the links along which lookaheads travel form arbitrary cyclic graphs; a test only covers the grammars tried", "anchors": ["TameParse/Lr/lalr_builder.cpp: find_lookahead_source, complete_lookaheads", "TameParse/Lr/conflict.cpp: find_conflicts", "TameParse/Lr/lr1_rewriter.cpp: rewrite_actions"]}
{"id": "C83", "title": "The faults reported for a regular expression are exactly its faults", "statement": "ndfa_regex::check_regex reports for a regular expression exactly the faults it has: each round bracket that is not closed, a character class or a name in curly brackets that is cut off, and each name that is not defined. Each fault is reported once, with its position, and the compiler reports that position as a position in the language file. It ends for every text, and nothing is reported for an expression that is well formed.", "quantifier": "every text, every set of defined names, every list of lexer definitions", "why_tests_cant": "brackets, classes, names and quoted characters nest in unboundedly many ways; tests cover a few expressions", "anchors": ["TameParse/Dfa/ndfa_regex.cpp: check_regex, check, check_expression", "TameParse/Compiler/lexer_stage.cpp: check_regex, compile, ndfa_lexer_compiler::check_expression", "TameParse/Dfa/regex_error.h"]}
{"id": "C84", "title": "Names of unicode categories stand for the characters of these categories", "statement": "In a regular expression, {u-NAME}, {uni-NAME} and {unicode-NAME} match, for each documented NAME (letter, letter-uppercase, ..., control-private), exactly one character of the unicode types the name stands for. No other names are accepted. No character has two types, and letters, digits, white space and control characters of ASCII are in the categories one expects.", "quantifier": "every name, every character", "why_tests_cant": "there are more than a million characters and 108 documented names; the loop over the tables is only sampled by tests", "anchors": ["TameParse/Dfa/ndfa_regex.cpp: unicode_for_expression, match_prefix, compile_expression", "TameParse/Unicode/unicode_data.h", "TameParse/Util/unicode.h"]}
{"id": "C85", "title": "The texts shown for grammars, parser states, conflicts and trees can be read back", "statement": "The texts in which grammar items, rules, LR items with and without lookahead, states, actions, conflicts and syntax trees are shown to the user determine what is shown: two different things never look the same, when the names of the symbols are as in definition files.", "quantifier": "every item (nested to any depth), rule, position of the dot, lookahead set, state, action, conflict and syntax tree, and every naming of the symbols by identifiers, strings, characters and <names>", "why_tests_cant": "tests compare a few texts; that no two different things share a text is a statement about all pairs of items nested to any depth and all names", "anchors": ["TameParse/Language/formatter.cpp: to_string for items, rules, item sets, LR items, states, actions, conflicts and AST nodes", "TameParse/Language/formatter.h"]}
{"id": "C86", "title": "The definition read from a text of the bootstrap language says what was written", "statement": "For every text of the bootstrap language, in which the definition language itself is defined, the definition made from its syntax tree says exactly what the text says: the same blocks in the same order with the same words, names, kinds of items, alternatives and repetitions. A text is refused exactly if a language in it inherits from another or a symbol is taken from another language. Reading never uses a child or lexeme that is not there.", "quantifier": "every text and every syntax tree of the bootstrap grammar for it, with lists of any length and items nested to any depth", "why_tests_cant": "the one test reads the definition of the definition language itself; other texts and other nestings are never read", "anchors": ["TameParse/Language/bootstrap.cpp: create_grammar, get_definition, get_toplevel_list, get_toplevel, get_parser_block, get_language, get_language_defn_list, get_language_defn, get_lexer_block, get_grammar_block, get_production_list, get_production_definition, get_ebnf_list, get_ebnf_item", "TameParse/Util/astnode.h", "TameParse/Lr/ast_parser.h"]}
{"id": "C87", "title": "Copies of definition objects say the same and share nothing", "statement": "Copying or assigning any object of a definition file (item, production, rule, grammar, lexer block, precedence block, language unit, language, import, parser, test, top level block, file) gives an object that says the same as the source and owns only new objects; the target's old parts are released exactly once; afterwards source and copy can both be destroyed with no object released twice and none left over.", "quantifier": "every object, nested to any depth, every state of the memory, every pair of target and source including an object assigned to itself", "why_tests_cant": "the tests never copy a definition; a value that was never set or an object released twice shows only by chance", "anchors": ["TameParse/Language/ebnf_item.cpp", "TameParse/Language/production_definition.cpp", "TameParse/Language/nonterminal_definition.cpp", "TameParse/Language/grammar_block.cpp", "TameParse/Language/lexer_block.cpp", "TameParse/Language/precedence_block.h, precedence_block.cpp", "TameParse/Language/language_unit.cpp", "TameParse/Language/language_block.cpp", "TameParse/Language/test_block.cpp", "TameParse/Language/toplevel_block.cpp", "TameParse/Language/definition_file.cpp: operator=, copy constructors, destructors"]}
{"id": "C88", "title": "Positions of definition objects span their parts", "statement": "The start and end positions of every object read from a definition file enclose those of its parts: items enclose their children, productions lie exactly where they were written, files begin where the first block begins and end where the last block ends. The same holds when parts are added by hand in any order.", "quantifier": "every syntax tree whose parts lie inside the whole, of any depth and width; every sequence of parts added", "why_tests_cant": "tests do not look at the positions of definitions; the positions in error messages depend on all nestings", "anchors": ["TameParse/Language/ebnf_item.cpp: add_child", "TameParse/Language/production_definition.cpp: add_item", "TameParse/Language/definition_file.cpp: add", "TameParse/Language/toplevel_block.cpp: constructors", "TameParse/Language/language_parser.cpp: definition_for", "TameParse/Dfa/position.h"]}
{"id": "C89", "title": "Lexemes, syntax trees, accepting actions, states and conflicts are ordered strictly", "statement": "The comparisons of positions, lexemes, syntax tree nodes, accepting actions, parser states and conflicts can be used for sets and maps: nothing is less than itself, of two things at most one is less than the other, less-than can be chained, and things which are not told apart agree in what the comparison is about.", "quantifier": "every two or three positions, lexemes, trees of any depth and width, actions of the library and of languages, states with any items, conflicts", "why_tests_cant": "a comparison that is no order only shows as lost or doubled entries of a set, for the particular values that meet", "anchors": ["TameParse/Dfa/lexeme.cpp: operator<", "TameParse/Dfa/lexeme.h: compare", "TameParse/Util/astnode.cpp: operator<", "TameParse/Dfa/accept_action.cpp: operator<", "TameParse/Compiler/lexer_stage.cpp: language_accept_action::operator<", "TameParse/Lr/lr_state.h: operator<", "TameParse/Lr/conflict.cpp: operator<"]}
{"id": "C90", "title": "Parser tables are values and release their memory", "statement": "Whatever sequence of constructions (from a builder, around arrays of the client), copies, assignments and destructions a program makes with parser tables: no released array is read or released again, every object answers with what was last given to it, independently of all others; arrays passed in by the client are never released or changed, and once all objects are destroyed all arrays that the class made are released.", "quantifier": "every finite history of constructions, copies, assignments (also to itself) and destructions over any number of objects and any tables", "why_tests_cant": "a double release or a leak shows only for particular histories, and not in the answers", "anchors": ["TameParse/Lr/parser_tables.cpp: parser_tables::parser_tables (three constructors), operator=, ~parser_tables"]}
{"id": "C91", "title": "A lexer object cuts texts by the expressions added before it was first used", "statement": "Whatever sequence of calls (adding expressions, compiling with flat or compact tables, opening streams, verifying) a program makes on a lexer object: every text is cut at each place into the longest match of the expressions that were added before the first compilation or the first stream, with the lowest of the symbols that match it, or into one character without a symbol; expressions added later change nothing; verify says yes before and no after; no table is accessed outside its bounds. A lexer made from a finished automaton cuts by that automaton under any calls, and the character lexer delivers every character as a lexeme of its own, at its position.", "quantifier": "every finite history of calls, every set of expressions and symbols, every text, flat and compact tables", "why_tests_cant": "the answers depend on the order of all earlier calls and on every combination of expressions", "anchors": ["TameParse/Dfa/lexer.cpp: lexer::lexer, add_symbol, compile, create_stream, verify", "TameParse/Dfa/character_lexer.cpp: character_lexer::lstream::operator>>", "TameParse/Dfa/remapped_symbol_map.cpp: deduplicate"]}
{"id": "C92", "title": "The actions of a state are computed once, with the rewriters then in force", "statement": "Whatever sequence of questions for the actions of states and of changes of the rewriters (adding one, replacing all) a program makes on an LALR builder whose machine is complete: every question is answered, with exactly the LALR(1) actions of the state in their order, passed through the rewriters in the order they were added, each working on what the one before it left; the rewriters that count are those in force when the state was asked for first. If all rewriters are set before the first question, no answer depends on which states were asked for before, how often or in which order, nor on what else used the grammar's caches.", "quantifier": "every finite history of questions and changes, every rewriter, every grammar and machine built from it", "why_tests_cant": "answers are kept and caches are shared, so an answer could depend on all earlier calls", "anchors": ["TameParse/Lr/lalr_builder.cpp: lalr_builder::actions_for_state, add_rewriter, set_rewriters"]}
{"id": "C93", "title": "The functions of generated source for a start symbol make parsers for this symbol", "statement": "The class written for a language has, for each start symbol, functions create_<symbol> that take actions, a stream of lexemes, an istream or something like a stream. No function is defined twice, none has the name of a syntax tree class, of the language's class or of another member, and the parser that any of the functions for a start symbol makes starts in the state of this symbol, so that it accepts exactly the language of this symbol.", "quantifier": "every list of start symbols, every language and its names, every input", "why_tests_cant": "states are numbered by counting start symbols and names are made by replacing characters, so agreement depends on all start symbols at once", "anchors": ["TameParse/Compiler/OutputStages/cplusplus.cpp: output_cplusplus::header_start_symbols", "TameParse/Compiler/lr_parser_stage.cpp: lr_parser_stage::compile (m_InitialStates)", "TameParse/Compiler/output_stage.h: get_start_symbols"]}
{"id": "C94", "title": "The console shows every problem once, in a form that can be read back, and the exit code says whether there was one", "statement": "Everything reported to the console as a detail, warning or error appears once and in order on the error stream, as a line file:line:column: severity: description from which all these parts can be read back; remarks appear on the output stream if verbose output was asked for. Suppressing warnings hides warnings and the details about them and nothing else. The exit code is 0 exactly if no error was reported, whatever the options, and otherwise the severity of the worst error.", "quantifier": "every sequence of messages, every setting of the options, every file name, position and text", "why_tests_cant": "ambiguity of lines and the effect of one message on the showing of others and on the exit code depend on all texts and all orders of messages", "anchors": ["TameParse/Compiler/std_console.cpp: std_console::report_error", "TameParse/Compiler/std_console.cpp: std_console::verbose_stream", "TameParse/Compiler/std_console.cpp: std_console::exit_code", "parsetool/boost_console.cpp: boost_console::report_error"]}
{"id": "C95", "title": "Formatting JSON with the example program does not change what it says", "statement": "For every JSON text that the parser generated from json.tp accepts, the text written by the formatter is accepted too, and is read as the same value: the same names, strings, numbers and literals in the same structure and order, whatever they are; formatting again changes nothing. A JSON text is read as the JSON standard says.", "quantifier": "every text that json.tp accepts, every depth of nesting", "why_tests_cant": "the output must be cut into the same tokens by the longest-match lexer for all strings and numbers next to all kinds of punctuation and indentation", "anchors": ["Examples/JsonPrettyPrinter/json_format.cpp: pretty_print", "Examples/JsonPrettyPrinter/json_format.cpp: main", "Examples/JsonPrettyPrinter/json.tp"]}
{"id": "C96", "title": "The example grammar with a guard accepts exactly a^n b^n c^n", "statement": "The parser generated from Examples/ContextSensitive.tp, started in its initial state on any sequence of lexemes, accepts it exactly when it is n symbols a, then n symbols b, then n symbols c, for some n of at least one: a guard, checked by lookahead of unlimited length, lets the generated parser accept a language that is not context-free, and nothing else.", "quantifier": "every sequence of lexemes, of any length; every kind of lexeme and of parser actions", "why_tests_cant": "the tests in the file check a few words; that no other word is accepted, and that the guard is found however long the lookahead must be, concerns all words", "anchors": ["Examples/ContextSensitive.tp", "TameParse/Lr/parser_state.h: check_guard", "TameParse/Lr/parser_state.h: process_guard", "TameParse/Lr/lalr_builder.cpp"]}
{"id": "C97", "title": "The comments of the Ansi-C example are the comments of C", "statement": "The lexer generated from Examples/AnsiC.tp takes a text for a comment exactly when it is a comment of C: it begins with slash and star, and ends with the first star and slash after that. In particular every comment of C is ignored, and no code that stands between two comments is.", "quantifier": "every text", "why_tests_cant": "it is about the language of a regular expression: all contents of comments, of any length, with stars and slashes anywhere", "anchors": ["Examples/AnsiC.tp: comment", "Examples/AnsiC.tp: comment-start", "Examples/AnsiC.tp: comment-end", "TameParse/Dfa/ndfa_regex.cpp"]}
{"id": "C98", "title": "The comments of the Pascal example are the comments of Pascal", "statement": "The lexer generated from Examples/Pascal.tp takes a text for a comment exactly when ISO 7185 (which the file says it follows) does: it begins with an opening curly bracket or a round bracket and star, and ends with the first closing curly bracket or star and round bracket after that. In particular every comment is ignored, and no statement that stands between two comments is.", "quantifier": "every text", "why_tests_cant": "it is about the language of a regular expression: all contents of comments, of any length, with stars and brackets anywhere", "anchors": ["Examples/Pascal.tp: commentary", "TameParse/Dfa/ndfa_regex.cpp"]}
