{"id": "C01", "title": "Every generated symbol is new", "statement": "Until the numeric range of the symbol type is used up, every call that creates a symbol (next_sym, sym, with_names, generate_fresh) on a symbol source returns the symbol whose usize value is the number of symbols created so far, so no symbol is ever returned twice; num_syms counts them; and when the range is used up the source panics for 8 and 16 bit symbols.", "quantifier": "all widths, all source states, all sequences of creation calls", "why_tests_cant": "the claim is about unbounded sequences of calls and the numeric boundary of each width", "anchors": ["cfg-symbol/src/source.rs: SymbolSource::next_sym, advance, sym, with_names, generate_fresh, num_syms", "cfg-symbol/src/symbol.rs: Symbol::usize, SymbolPrimitive::MAX"]}
{"id": "C02", "title": "Symbol names stay attached to their symbols", "statement": "After any sequence of symbol creations, name_of / original_name_of of a symbol give the name it was created with (or g{n} / None for an anonymous one), and truncating to a smaller size keeps the names of the surviving symbols and forgets the rest.", "quantifier": "all histories of creations and truncations, all symbols", "why_tests_cant": "tests fix one short history; the claim is an invariant over all of them", "anchors": ["cfg-symbol/src/source.rs: SymbolSource::next_sym, name_of, original_name_of, truncate, remap_symbols"]}
{"id": "C03", "title": "Serialized symbols read back unchanged", "statement": "Serializing a symbol and deserializing the number gives the same symbol, for every representable symbol of every width, and every number that is not the serialization of a symbol is rejected.", "quantifier": "all symbols of all widths; all numbers", "why_tests_cant": "the boundary cases (largest symbol, first rejected number) differ per width and the range is too large to enumerate", "anchors": ["cfg-symbol/src/symbol.rs: miniserde Serialize/Deserialize for Symbol"]}
{"id": "C04", "title": "Composing symbol mappings", "statement": "Translating a mapping (to_internal/to_external pair) by a second mapping yields the composition in both directions; if both are mutually inverse then so is the result.", "quantifier": "all pairs of mappings", "why_tests_cant": "ranges over all pairs of finite maps", "anchors": ["cfg-symbol/src/intern.rs: Mapping::translate"]}
{"id": "C05", "title": "Symbol-set queries are exact", "statement": "used, unused, terminal, nulling and productive sets contain exactly the symbols that appear in some rule, in no rule, on no left-hand side, on the left of an empty rule, and on the left of some rule (productive adds those to the given set, subtract_productive removes them); iter lists exactly the members in ascending order; negate complements; union unites sets of equal space; all tells whether everything is a member; reserve adds no members.", "quantifier": "all grammars, all symbols", "why_tests_cant": "for all grammars", "anchors": ["cfg-grammar/src/symbol_bit_set.rs: SymbolBitSet::{used,unused,terminal,nulling,productive,iter,negate,union,all}"]}
{"id": "C06", "title": "RHS closure is the least closed set", "statement": "rhs_closure_for_all(set) terminates with the smallest superset of the set that contains the left-hand side of every non-empty rule all of whose right-hand-side symbols it contains; rhs_closure_for_any likewise with some right-hand-side symbol. Neither panics when the set covers all symbols.", "quantifier": "all grammars (including cyclic ones), all starting sets", "why_tests_cant": "termination and leastness for all grammars cannot be sampled", "anchors": ["cfg-grammar/src/cfg.rs: Cfg::rhs_closure, rhs_closure_for_all, rhs_closure_for_any", "cfg-grammar/src/occurence_map.rs: OccurenceMap::from_rules"]}
{"id": "C07", "title": "Weighted RHS closure gives minimal costs", "statement": "rhs_closure_with_values terminates, and the final value of a symbol is the minimum, over all derivation trees built from non-empty rules whose leaves are symbols with an initial value, of the sum of the leaf values (None when there is no such tree), as long as no sum exceeds u32.", "quantifier": "all grammars, all initial values", "why_tests_cant": "minimality over the infinite set of derivation trees", "anchors": ["cfg-grammar/src/cfg.rs: Cfg::rhs_closure_with_values"]}
{"id": "C08", "title": "is_empty of a symbol set", "statement": "SymbolBitSet::is_empty returns true exactly when the set has no member.", "quantifier": "all symbol sets", "why_tests_cant": "universally quantified; the code has no test for it", "anchors": ["cfg-grammar/src/symbol_bit_set.rs: SymbolBitSet::is_empty"]}
{"id": "C09", "title": "Limiting the right-hand-side length preserves the language", "statement": "For a limit of at least 2, limit_rhs_len (and every rule added while the limit is on) leaves the set of terminal strings derivable from every previously existing symbol unchanged.", "quantifier": "all grammars, all limits >= 2, all symbols, all strings", "why_tests_cant": "equality of two infinite languages for all grammars", "anchors": ["cfg-grammar/src/cfg.rs: Cfg::limit_rhs_len, add_rule"]}
{"id": "C10", "title": "Length limit is enforced with the fewest changes", "statement": "For a limit n >= 2, after limit_rhs_len no rule has more than n right-hand-side symbols; rules that already fit are kept unchanged and in order; a rule of length m > n is split in 1+ceil((m-n)/(n-1)) rules; repeating the call changes nothing.", "quantifier": "all grammars, all limits >= 2", "why_tests_cant": "quantifies over all rule lengths and limits", "anchors": ["cfg-grammar/src/cfg.rs: Cfg::limit_rhs_len, add_rule, rule_rhs_len_allowed_range"]}
{"id": "C11", "title": "limit_rhs_len always returns and never loses rules", "statement": "limit_rhs_len terminates for every grammar and every limit, and drops no rule.", "quantifier": "all grammars, all limits", "why_tests_cant": "termination on all inputs", "anchors": ["cfg-grammar/src/cfg.rs: Cfg::limit_rhs_len, add_rule"]}
{"id": "C12", "title": "The grammar stays closed under every operation", "statement": "After any sequence of grammar operations every symbol in a rule, root or wrapped root is one issued by the grammar's own symbol source, and symbols invented by an operation occur in no earlier rule.", "quantifier": "all sequences of operations", "why_tests_cant": "an invariant over all histories", "anchors": ["cfg-grammar/src/cfg.rs: Cfg::{add_rule,limit_rhs_len,wrap_input,reverse,sort,dedup,retain,binarize_and_eliminate_nulling_rules}"]}
{"id": "C13", "title": "Nulling elimination preserves the non-empty strings", "statement": "After binarize_and_eliminate_nulling_rules every original symbol derives exactly the same non-empty strings over the original terminals as before.", "quantifier": "all grammars, all symbols, all strings", "why_tests_cant": "equality of two infinite languages for all grammars", "anchors": ["cfg-grammar/src/cfg.rs: Cfg::binarize_and_eliminate_nulling_rules"]}
{"id": "C14", "title": "Nulling elimination splits off exactly the empty string", "statement": "After binarize_and_eliminate_nulling_rules no remaining rule is empty and none has more than 2 symbols, no symbol with an original name derives the empty string, and in the returned grammar a symbol derives the empty string exactly when it did before.", "quantifier": "all grammars, all symbols", "why_tests_cant": "for all grammars", "anchors": ["cfg-grammar/src/cfg.rs: Cfg::binarize_and_eliminate_nulling_rules"]}
{"id": "C15", "title": "Nulling elimination invents no terminals", "statement": "A symbol that can occur in a rule of the grammar left by binarize_and_eliminate_nulling_rules and has no rule there had no rule before either.", "quantifier": "all grammars", "why_tests_cant": "for all grammars", "anchors": ["cfg-grammar/src/cfg.rs: Cfg::binarize_and_eliminate_nulling_rules (retain by productive lhs)"]}
{"id": "C16", "title": "Eliminated symbols are recorded in rule history", "statement": "Every rule produced by nulling elimination by deleting one symbol records in its history which symbol was deleted and on which side, that symbol was nullable, and putting it back gives a rule of the binarized grammar; origin and weight of the source rule are kept.", "quantifier": "all grammars, all rules", "why_tests_cant": "for all grammars", "anchors": ["cfg-grammar/src/cfg.rs: binarize_and_eliminate_nulling_rules", "cfg-history/src/earley/mod.rs: History::eliminate_nulling"]}
{"id": "C17", "title": "Binarization history gives the original dot positions", "statement": "For each rule produced by splitting a rule of n symbols under limit 2, the history's trace for each dot that is between symbols of the original rule is the number of original symbols before that dot.", "quantifier": "all rules and lengths", "why_tests_cant": "for all lengths; off-by-one errors depend on the length", "anchors": ["cfg-history/src/earley/mod.rs: History::binarize", "cfg-grammar/src/cfg.rs: Cfg::add_rule"]}
{"id": "C18", "title": "wrap_input adds exactly the two end markers", "statement": "After wrap_input the i-th root derives exactly the strings start-marker w end-marker where w is derived by the i-th old root; other symbols' languages are unchanged, and wrapped roots record the markers and old roots in order.", "quantifier": "all grammars, all sets of roots, all strings", "why_tests_cant": "language equality for all grammars", "anchors": ["cfg-grammar/src/cfg.rs: Cfg::wrap_input"]}
{"id": "C19", "title": "is_empty of a grammar", "statement": "is_empty is true exactly when the grammar has no rules besides the ones added by wrap_input.", "quantifier": "all grammars and histories", "why_tests_cant": "for all grammars", "anchors": ["cfg-grammar/src/cfg.rs: Cfg::is_empty"]}
{"id": "C20", "title": "Reversing a grammar reverses its language", "statement": "reverse makes every symbol derive exactly the reversals of what it derived before; reversing twice restores all rules.", "quantifier": "all grammars, symbols, strings", "why_tests_cant": "language equality for all grammars", "anchors": ["cfg-grammar/src/cfg.rs: Cfg::reverse"]}
{"id": "C21", "title": "Sorting and deduplicating keep the language", "statement": "sort permutes the rules into (lhs, rhs) order; dedup removes only repeated neighbours; after sort then dedup no (lhs, rhs) pair occurs twice; derivations are the same before and after.", "quantifier": "all grammars", "why_tests_cant": "for all rule lists", "anchors": ["cfg-grammar/src/cfg.rs: Cfg::sort, sort_by, dedup"]}
{"id": "C22", "title": "Equivalence check", "statement": "equivalent is true only if the two grammars have the same number of rules and corresponding rules have the same length and the same symbols up to a renaming.", "quantifier": "all pairs of grammars", "why_tests_cant": "for all pairs of grammars", "anchors": ["cfg-grammar/src/compare.rs: Cfg::equivalent"]}
{"id": "C23", "title": "Dotted positions of a column", "statement": "column(c) lists for each rule, in order, the symbol before dot c and after dot c, absent exactly when the position is outside of the rule.", "quantifier": "all grammars, all columns", "why_tests_cant": "for all columns incl. 0 and beyond the end", "anchors": ["cfg-grammar/src/cfg.rs: Cfg::column"]}
{"id": "C24", "title": "Precedence builder: language", "statement": "The grammar built by precedenced_rule(lhs) ... finalize derives from lhs exactly the operator expressions in which every operand has the looseness allowed by its parent's level and associativity, and leaves all other symbols' derivations unchanged.", "quantifier": "all sequences of builder calls, all strings", "why_tests_cant": "infinite language, all builder histories", "anchors": ["cfg-grammar/src/precedenced_rule.rs: PrecedencedRuleBuilder"]}
{"id": "C25", "title": "Precedence builder: soundness against the ambiguous grammar", "statement": "Every string derived by the precedence grammar from lhs is derived by the plain ambiguous grammar with the same alternatives.", "quantifier": "all builder histories, all strings", "why_tests_cant": "language inclusion for all builder histories", "anchors": ["cfg-grammar/src/precedenced_rule.rs: PrecedencedRuleBuilder"]}
{"id": "C26", "title": "Precedence builder: associativity on every level", "statement": "On every precedence level a left (right) associative alternative never has an alternative of the same level as any operand but its leftmost (rightmost).", "quantifier": "all builder histories", "why_tests_cant": "for all histories; the first level is special in the code", "anchors": ["cfg-grammar/src/precedenced_rule.rs: PrecedencedRuleBuilder::rhs_with_history"]}
{"id": "C27", "title": "Sequence rules: language", "statement": "After rewriting a sequence rule lhs ::= rhs{start..end} with separator, lhs derives exactly its earlier strings and the repetitions of rhs with count in the range, separated as requested (proper, trailing, liberal or none).", "quantifier": "all ranges start<=end<=2^31 or unbounded, all separators, all grammars", "why_tests_cant": "infinite range of bounds and infinite languages", "anchors": ["cfg-sequence/src/rewrite.rs: SequencesToProductions::{rewrite,recurse,reduce}"]}
{"id": "C28", "title": "Sequence rewriting terminates and is local", "statement": "Rewriting terminates for every valid range, invents only fresh symbols, and leaves the derivations of all symbols that do not use lhs unchanged.", "quantifier": "all valid ranges, all grammars", "why_tests_cant": "termination for all ranges", "anchors": ["cfg-sequence/src/rewrite.rs: SequencesToProductions::rewrite, recurse"]}
{"id": "C29", "title": "Sequence builder bounds", "statement": "The inclusive bounds passed on by the sequence builder for a Rust range contain exactly the numbers of that range.", "quantifier": "all range bounds", "why_tests_cant": "boundaries of u32", "anchors": ["cfg-sequence/src/builder.rs: SequenceRuleBuilder::range", "cfg-sequence/src/rewrite.rs: SequencesToProductions", "cfg-sequence/src/lib.rs: Sequence"]}
{"id": "C30", "title": "Derivation matrices are exact", "statement": "reachability has bit (a,b) exactly when a derives, in one or more steps, a sentential form containing b; the unit derivation matrix exactly when a derives b by one or more unit rules between distinct symbols.", "quantifier": "all grammars, all pairs of symbols", "why_tests_cant": "transitive closure for all grammars", "anchors": ["cfg-symbol-bit-matrix/src/symbol_bit_matrix.rs: ReachabilityMatrix, UnitDerivationMatrix"]}
{"id": "C31", "title": "Usefulness is exact", "statement": "A symbol is reported productive exactly when it derives a terminal string and a rule is reported reachable exactly when its lhs occurs in a sentential form derived from a root; all_useful is true exactly when all rules are useful.", "quantifier": "all grammars, roots, symbols", "why_tests_cant": "for all grammars", "anchors": ["cfg-classify/src/useful.rs: Usefulness::{new,productivity,reachable,usefulness,all_useful,useless_rules}"]}
{"id": "C32", "title": "Removing useless rules preserves root languages", "statement": "remove_useless_rules and make_proper leave the strings of (original) terminals derived by every root unchanged.", "quantifier": "all grammars, roots, strings", "why_tests_cant": "language equality for all grammars", "anchors": ["cfg-classify/src/useful.rs: Usefulness::remove_useless_rules", "cfg-classify/src/lib.rs: CfgClassifyExt::make_proper"]}
{"id": "C33", "title": "make_proper leaves no useless rule", "statement": "After make_proper every remaining rule is useful.", "quantifier": "all grammars", "why_tests_cant": "for all grammars", "anchors": ["cfg-classify/src/lib.rs: CfgClassifyExt::make_proper", "cfg-classify/src/useful.rs: Usefulness::remove_useless_rules"]}
{"id": "C34", "title": "Cycle detection and removal", "statement": "cycle_free is true exactly when no symbol derives itself through unit rules over two or more symbols; classify marks exactly the rules on such cycles; after remove_cycles or rewrite_cycles the grammar is cycle free.", "quantifier": "all grammars", "why_tests_cant": "for all grammars", "anchors": ["cfg-classify/src/cyclical.rs: Cycles"]}
{"id": "C35", "title": "rewrite_cycles preserves the language", "statement": "rewrite_cycles preserves the language of every root.", "quantifier": "all grammars, roots, strings", "why_tests_cant": "language equality for all grammars", "anchors": ["cfg-classify/src/cyclical.rs: Cycles::rewrite_cycles"]}
{"id": "C36", "title": "Recursion classification", "statement": "A rule is reported recursive exactly when its lhs derives a sentential form, starting with that rule, that contains the lhs again; left/right/middle tell from which right-hand-side position; left is reported exactly for left-recursive rules.", "quantifier": "all grammars, rules", "why_tests_cant": "for all grammars", "anchors": ["cfg-classify/src/recursive.rs: RecursiveRules, rule_recursion"]}
{"id": "C37", "title": "Reordering symbols is a renaming", "statement": "reorder_symbols applies a permutation of the symbols consistently to rules, roots, wrapped roots and names, ordered by the given comparison; each symbol derives exactly the renamed strings.", "quantifier": "all grammars, all comparison functions", "why_tests_cant": "for all grammars and comparisons", "anchors": ["cfg-symbol-bit-matrix/src/remap_symbols.rs: Remap::reorder_symbols, remap_symbols"]}
{"id": "C38", "title": "Removing unused symbols", "statement": "remove_unused_symbols leaves exactly the symbols that occur in rules, in their old order, and renames rules and roots consistently.", "quantifier": "all grammars", "why_tests_cant": "for all grammars", "anchors": ["cfg-symbol-bit-matrix/src/remap_symbols.rs: Remap::remove_unused_symbols"]}
{"id": "C39", "title": "Remap mapping is an inverse pair", "statement": "After any sequence of reorder_symbols and remove_unused_symbols calls, the mapping translates each current symbol to an original one and back, and relates each current rule to an original one.", "quantifier": "all sequences of calls", "why_tests_cant": "an invariant over all histories", "anchors": ["cfg-symbol-bit-matrix/src/remap_symbols.rs: Remap", "cfg-symbol/src/intern.rs: Mapping::translate"]}
{"id": "C40", "title": "FIRST sets are exact", "statement": "t is in the FIRST set of nonterminal A exactly when A derives a sentential form that begins with terminal t, and the empty marker is set exactly when A derives the empty string; the computation terminates.", "quantifier": "all grammars", "why_tests_cant": "fixpoint for all grammars", "anchors": ["cfg-predict-sets/src/first.rs: FirstSets::new, collect_from, process_rule, first_set_collect"]}
{"id": "C41", "title": "LAST sets are exact", "statement": "t is in the LAST set of A exactly when A derives a sentential form that ends with terminal t; empty marker as for FIRST.", "quantifier": "all grammars", "why_tests_cant": "fixpoint for all grammars", "anchors": ["cfg-predict-sets/src/last.rs: LastSets::new"]}
{"id": "C42", "title": "FOLLOW sets are exact", "statement": "t is in the FOLLOW set of A exactly when some nonterminal derives a sentential form in which t directly follows A; the end marker is set exactly when A can end a sentential form derived from a root.", "quantifier": "all grammars, roots", "why_tests_cant": "fixpoint for all grammars", "anchors": ["cfg-predict-sets/src/follow.rs: FollowSets::new"]}
{"id": "C43", "title": "FIRST of a string", "statement": "first_set_for_string(s) contains exactly the terminals that begin sentential forms derived from s, and the empty marker exactly when s derives the empty string.", "quantifier": "all grammars, all strings", "why_tests_cant": "for all grammars and strings", "anchors": ["cfg-predict-sets/src/first.rs: FirstSets::first_set_for_string"]}
{"id": "C44", "title": "LL(1) classification", "statement": "A grammar is reported LL(1) only if no two rules of one nonterminal can start with, or be followed after vanishing by, the same terminal.", "quantifier": "all grammars", "why_tests_cant": "for all grammars", "anchors": ["cfg-classify/src/ll.rs: LlParseTable::new, LlClassification"]}
{"id": "C45", "title": "Minimal sentence lengths are exact", "statement": "minimal_sentence_lengths gives for every symbol the length of its shortest derivable terminal string (none if there is none) as long as it fits u32.", "quantifier": "all grammars, all symbols", "why_tests_cant": "minimum over an infinite language, for all grammars", "anchors": ["cfg-predict-distance/src/lib.rs: MinimalDistance::minimal_sentence_lengths", "cfg-grammar/src/cfg.rs: rhs_closure_with_values"]}
{"id": "C46", "title": "Minimal distances are realizable", "statement": "Every distance reported for a dot is the length of some terminal string that leads from this dot to a target dot; no panic.", "quantifier": "all grammars, all sets of target dots", "why_tests_cant": "for all grammars", "anchors": ["cfg-predict-distance/src/lib.rs: MinimalDistance"]}
{"id": "C47", "title": "Random generation stays in the language", "statement": "If random generation (without negative rules) returns a string, it is a terminal string derivable from the start symbol and respects the length limit, whatever the random source returns.", "quantifier": "all grammars, start symbols, weights, random sources, limits", "why_tests_cant": "for all random choices", "anchors": ["cfg-generate/src/weighted/random.rs: Random::random", "cfg-generate/src/weighted/weighted_rhs_by_lhs.rs: pick_rhs"]}
{"id": "C48", "title": "Random generation always returns", "statement": "With a length limit set, random generation terminates.", "quantifier": "all grammars, random sources", "why_tests_cant": "termination on all inputs", "anchors": ["cfg-generate/src/weighted/random.rs: Random::random"]}
{"id": "C49", "title": "Negative rules only restrict", "statement": "Random generation with negative rules returns only strings of the language with the negative symbols erased.", "quantifier": "all grammars, negative symbols, random sources", "why_tests_cant": "for all random choices and backtracking histories", "anchors": ["cfg-generate/src/weighted/random.rs: BacktrackState"]}
{"id": "C50", "title": "Lexer map lookup", "statement": "get(ch) lists exactly the class symbols whose class contains ch.", "quantifier": "all class tables, all characters", "why_tests_cant": "for all characters and class tables", "anchors": ["cfg-regexp-logic/src/lib.rs: LexerMap::compute, get, LexerClasses"]}
{"id": "C51", "title": "Regular expressions translate to equivalent grammars", "statement": "The root of the grammar built from a regular expression derives exactly the strings of byte and class symbols matched by the expression.", "quantifier": "all regular expressions without look-around, all strings", "why_tests_cant": "structural induction on expressions; infinite languages", "anchors": ["cfg-regexp-logic/src/lib.rs: Translator::cfg_from_hir, walk_hir"]}
{"id": "C52", "title": "Loading a BNF file gives the written grammar", "statement": "The grammar built from parsed rules has exactly the written productions, with X* and X+ as zero/one or more repetitions, and the first left-hand side as the root.", "quantifier": "all rule files", "why_tests_cant": "language equality for all inputs", "anchors": ["cfg-load/src/basic.rs: Cfg::load"]}
{"id": "C53", "title": "Printing and loading a grammar", "statement": "Tokenizing the text printed by to_bnf gives back the printed rules, token for token, when names are identifiers.", "quantifier": "all grammars with identifier names", "why_tests_cant": "for all grammars", "anchors": ["cfg-load/src/basic.rs: to_bnf, Lexer", "cfg-grammar/src/cfg.rs: stringify_to_bnf"]}
{"id": "C54", "title": "Tokenizer covers the input", "statement": "The BNF tokenizer terminates on every text, and its tokens are those of the maximal-munch reading of the text; any text outside of the lexical grammar gives an error.", "quantifier": "all texts", "why_tests_cant": "for all texts", "anchors": ["cfg-load/src/basic.rs: Lexer"]}
{"id": "C55", "title": "String interning is injective", "statement": "Interning gives equal symbols exactly to equal strings, and resolving returns the interned string, in every history.", "quantifier": "all histories of interning calls", "why_tests_cant": "for all histories", "anchors": ["cfg-load/src/string_interner.rs: StringInterner"]}
{"id": "C56", "title": "LR(0) closure", "statement": "The closure of an item set contains all given items and exactly the start items of every nonterminal after a dot, transitively.", "quantifier": "all grammars, all item sets", "why_tests_cant": "for all item sets", "anchors": ["cfg-classify/src/lr.rs: Lr0ClosureBuilder::closure"]}
{"id": "C57", "title": "LR(0) automaton numbering", "statement": "The automaton construction terminates, every link points to an existing node, and the node holds the advanced and closed item set of the link's source.", "quantifier": "all grammars", "why_tests_cant": "for all grammars", "anchors": ["cfg-classify/src/lr.rs: Lr0FsmBuilder::make_lr0_fsm, id_of"]}
{"id": "C58", "title": "Rule origin survives rewriting", "statement": "The origin recorded for a rule is found, after any chain of rewrites, on exactly the rule that completes it; sequence rewriting records the sequence details.", "quantifier": "all histories of rewrites", "why_tests_cant": "for all chains of rewrites", "anchors": ["cfg-history/src/earley/mod.rs: process_linked, History"]}
{"id": "C59", "title": "Rule comparison is an equivalence", "statement": "Comparison of named rules is reflexive, symmetric and transitive.", "quantifier": "all triples of rules", "why_tests_cant": "for all triples", "anchors": ["cfg-grammar/src/cfg.rs: NamedCfgRule PartialEq"]}
{"id": "C60", "title": "Rule builder: which alternatives are declared", "statement": "A chain of builder calls adds, in order, one alternative for each right-hand side call, with the left-hand side of the latest rule call and, as history, the one given with it, else the one assigned since the latest rule or alternative (an assigned history is overwritten by rhs_with_history), else the default.", "quantifier": "all sequences of builder calls", "why_tests_cant": "The pending history is hidden state; tests only look at single alternatives.", "anchors": ["cfg-grammar/src/rule_builder.rs:RuleBuilder"]}
{"id": "C61", "title": "Sequence builder calls", "statement": "The calls of the sequence builder declare, in order, the sequence rules they name: each alternative gets the left-hand side of the latest sequence call, the separator set since then, the range set since the previous alternative, and its own or the waiting history; a history that waits when rhs_with_history is called is overwritten.", "quantifier": "all sequences of builder calls, both destinations", "why_tests_cant": "the builder is stateful; tests cover a few call orders", "anchors": ["cfg-sequence/src/builder.rs: SequenceRuleBuilder", "cfg-sequence/src/destination.rs: SequenceDestination"]}
{"id": "C62", "title": "LR(0) automaton and viable prefixes", "statement": "Following links from the first node along a string leads to a node that contains exactly the LR(0) items valid for that string, and every viable prefix can be followed.", "quantifier": "all grammars with productive symbols, all strings", "why_tests_cant": "infinitely many prefixes and grammars", "anchors": ["cfg-classify/src/lr.rs: Lr0FsmBuilder::make_lr0_fsm"]}
{"id": "C63", "title": "Weights decide the choice of production", "statement": "A random value strictly inside the interval of a production, in the row of the cumulated weights of the productions of a symbol, chooses that production; a production of weight zero is never chosen.", "quantifier": "all grammars, symbols, weights, random values", "why_tests_cant": "for all weight tables and all values; the boundaries of a binary search", "anchors": ["cfg-generate/src/weighted/weighted_rhs_by_lhs.rs: Weighted::weighted, WeightedRhsByLhs::{add_weight,pick_rhs}"]}
{"id": "C64", "title": "Every sentence can be generated", "statement": "If all weights are positive, and for each symbol the sum of the weights of its productions times their number is at most 2^40, every sentence of the language within the length limit is the output of random generation for some random values in the range asked for (from 0 up to the limit passed to the source, without it).", "quantifier": "all grammars with positive weights that are not huge, all sentences, limits", "why_tests_cant": "existence for each of infinitely many sentences", "anchors": ["cfg-generate/src/weighted/random.rs: Random::random", "cfg-generate/src/weighted/weighted_rhs_by_lhs.rs: pick_rhs"]}
{"id": "C65", "title": "The attempt limit for negative rules is respected", "statement": "Random generation goes back because of negative rules at most as often as the given negative_rule_attempts, and returns the error for exceeded attempts after that.", "quantifier": "all grammars, negative rules, limits, random sources", "why_tests_cant": "for all random choices", "anchors": ["cfg-generate/src/weighted/random.rs: Limits::negative_rule_attempts, Random::random"]}
{"id": "C66", "title": "Random generation does not panic", "statement": "For symbols of the grammar and a random source that does not panic or return a NaN for the sums of weights, random generation returns a string or one of its errors, with or without negative rules.", "quantifier": "all grammars, negative rules, limits, random sources", "why_tests_cant": "for all random choices and backtracking histories", "anchors": ["cfg-generate/src/weighted/random.rs: Random::random"]}
{"id": "C67", "title": "The lexer map can always be computed", "statement": "compute returns for the class table of every translated expression, and afterwards get returns for every character.", "quantifier": "all class tables, all characters", "why_tests_cant": "which ranges panic depends on the values of both ends", "anchors": ["cfg-regexp-logic/src/lib.rs: LexerMap::compute, get"]}
{"id": "C68", "title": "Different bytes and classes have different symbols", "statement": "In the lexer map of a translated expression a symbol belongs to one byte or to one class only.", "quantifier": "all supported expressions, all bytes and classes", "why_tests_cant": "for all pairs of bytes and classes", "anchors": ["cfg-regexp-logic/src/lib.rs: LexerClasses, Translator::walk_hir"]}
{"id": "C69", "title": "Grammar and lexer map together match the expression", "statement": "A text is matched by the expression exactly if one of the symbol strings that the lexer map lists for its characters is derived by the root.", "quantifier": "all supported expressions, all texts", "why_tests_cant": "for all expressions and texts; composition of translation and lookup", "anchors": ["cfg-regexp-logic/src/lib.rs: Translator::cfg_from_hir, LexerMap::compute, get"]}
{"id": "C70", "title": "BNF texts have one parse", "statement": "A BNF text is accepted exactly if it consists of statements (a name, ::=, alternatives separated by bars, a semicolon), every parse of it has the same value, and that value is one rule for each alternative, in order.", "quantifier": "all texts", "why_tests_cant": "ambiguity and acceptance concern all texts", "anchors": ["cfg-load/src/basic.rs: Cfg::load, Evaluator"]}
{"id": "C71", "title": "Loading reports errors", "statement": "Loading a text that is not valid BNF returns an error and never panics.", "quantifier": "all texts", "why_tests_cant": "all invalid texts", "anchors": ["cfg-load/src/basic.rs: Cfg::load, Lexer::tokenize"]}
{"id": "C72", "title": "Printing and loading gives back the grammar", "statement": "Loading the text printed by to_bnf gives the same rules and roots up to a renaming of symbols that keeps their names.", "quantifier": "all grammars with identifier names", "why_tests_cant": "for all grammars", "anchors": ["cfg-load/src/basic.rs: Cfg::load, to_bnf", "cfg-grammar/src/cfg.rs: stringify_to_bnf"]}
{"id": "C73", "title": "Errors of notation are located", "statement": "Loading a text in the rich notation fails with a parse error exactly at the first token that no valid file could have there, with that token's line and column (one-indexed); else with an error where the text cannot be split into tokens; else if the file is incomplete.", "quantifier": "all texts", "why_tests_cant": "positions of errors in all texts", "anchors": ["cfg-load/src/advanced.rs: load_advanced, Lexer::tokenize", "cfg-load/src/lib.rs: LoadError"]}
{"id": "C74", "title": "Texts in the rich notation have one parse", "statement": "A text in the rich notation is accepted exactly if its tokens are those of a file of statements and lexer blocks; there is only one such file; every parse of it has the same value, which has one rule for each alternative, in order.", "quantifier": "all texts", "why_tests_cant": "ambiguity and acceptance concern all texts", "anchors": ["cfg-load/src/advanced.rs: load_advanced, Evaluator"]}
{"id": "C75", "title": "Loading the rich notation never panics", "statement": "Loading any text in the rich notation returns a grammar or an error; it does not panic.", "quantifier": "all texts and parsers of regular expressions", "why_tests_cant": "no test set covers all texts", "anchors": ["cfg-load/src/advanced.rs: load_advanced"]}
{"id": "C76", "title": "Rules of the rich notation are rejected for a reason", "statement": "A well-formed text is rejected exactly if some rule is at fault: a lexer rule shares its left-hand side with a rule of the parser, a function other than Regexp is applied, or the text of a Regexp is no regular expression. The error has the reason and the line of the first such rule.", "quantifier": "all texts of files", "why_tests_cant": "combinations of rules are unbounded", "anchors": ["cfg-load/src/advanced.rs: load_advanced", "cfg-load/src/lib.rs: LoadError"]}
{"id": "C77", "title": "The loaded grammar is the written one", "statement": "Every name in a text that is loaded has, in the grammar, the language that the rules describe: names stand for themselves or for repetitions, strings for their characters and Regexp for the strings its expression matches. The root is the left-hand side of the first rule.", "quantifier": "all texts of files", "why_tests_cant": "equality of languages cannot be tested", "anchors": ["cfg-load/src/advanced.rs: load_advanced", "cfg-load/src/advanced.rs: AdvancedGrammar"]}
{"id": "C78", "title": "The set of lexemes", "statement": "The set of lexemes of a loaded grammar contains exactly the left-hand sides of the rules of the lexer and the symbols of the strings, one for each different string, which derives exactly the characters of the string.", "quantifier": "all texts of files", "why_tests_cant": "all strings and rules", "anchors": ["cfg-load/src/advanced.rs: AdvancedGrammar::sbs"]}
{"id": "C79", "title": "Rules keep their number and action", "statement": "In a loaded grammar the origin of each written rule is its number, counted from one; no other rule has it, and under it the map of actions has the action that is written with the rule.", "quantifier": "all texts of files", "why_tests_cant": "all numbers of rules and helper rules", "anchors": ["cfg-load/src/advanced.rs: AdvancedGrammar::actions"]}
{"id": "C80", "title": "Names and symbols of a loaded grammar", "statement": "The map of names of a loaded grammar has the names that are written and the names of strings; each name has one symbol, which has that name; different names, characters and classes have different symbols; characters and classes are terminals without names.", "quantifier": "all texts of files", "why_tests_cant": "all combinations of names, strings and classes", "anchors": ["cfg-load/src/advanced.rs: AdvancedGrammar::sym_map, AdvancedGrammar::lexer_map"]}
{"id": "C81", "title": "The lexer map of a loaded grammar", "statement": "The lexer map of a loaded grammar maps every character to the symbols of the strings and expressions that have it, and to no others.", "quantifier": "all texts of files and all characters", "why_tests_cant": "all characters and overlapping classes", "anchors": ["cfg-load/src/advanced.rs: AdvancedGrammar::lexer_map", "cfg-regexp-logic/src/lib.rs: LexerMap"]}
{"id": "C82", "title": "Looking up symbols by name", "statement": "The map of names of a symbol source gives, for a name, the last symbol that has it, and nothing for names that no symbol has; when no name is used twice, it is the inverse of the function from symbols to names.", "quantifier": "all symbol sources and all names", "why_tests_cant": "any number of symbols, with and without names and with names used twice", "anchors": ["cfg-symbol/src/source.rs: SymbolSource::name_map, SymbolSource::original_name_of"]}
{"id": "C83", "title": "Serialized symbol sources and mappings", "statement": "A symbol source and a mapping that are serialized are read back unchanged, and only values that a symbol source can have are accepted when one is read.", "quantifier": "all symbol sources, all mappings, all JSON values", "why_tests_cant": "any number of names and of symbols, any JSON value given to the reader", "anchors": ["cfg-symbol/src/source.rs: SymbolSource, SymbolName", "cfg-symbol/src/symbol.rs: Serialize, Deserialize", "cfg-symbol/src/intern.rs: Mapping"]}
{"id": "C84", "title": "Symbols as bytes", "statement": "A symbol that is written as bytes is read back unchanged from any position, and reading bytes gives a symbol or an error, never a panic.", "quantifier": "all symbols, all sequences of bytes and all offsets", "why_tests_cant": "all sequences of bytes", "anchors": ["cfg-symbol/src/symbol.rs: SerBin, DeBin"]}
{"id": "C85", "title": "Positions of rules made from sequences", "statement": "A rule made from a sequence records, for each of its positions, which of the sequence's three positions it is: in front of the first element, after an element, or after a separator, as the table in the source says; a position in front of an inner symbol is none of them.", "quantifier": "for every sequence with every history, every element, separator and other symbol", "why_tests_cant": "which of the rows occurs depends on the bounds and separator, and the histories are not visible in what the grammar accepts", "anchors": ["cfg-history/src/earley/mod.rs: History::rewrite_sequence, process_linked", "cfg-sequence/src/rewrite.rs: SequencesToProductions::rewrite"]}
{"id": "C86", "title": "Distances are minimal", "statement": "The distance reported for a position is the least number of terminals that lead from it to a given target position: no shorter string leads there, and some distance is reported whenever some string leads there.", "quantifier": "for every grammar, every set of targets, every position of every rule", "why_tests_cant": "the distances are the fixpoint of an iteration over the rules, and whether it stopped at it depends on the order and nesting of the rules", "anchors": ["cfg-predict-distance/src/lib.rs: MinimalDistance::minimal_distances, MinimalDistance::distances"]}
{"id": "C87", "title": "Distances of recursive rules", "statement": "For recursion, the minimal distances list exactly the recursive rules with their kind of recursion, and for each the least number of terminals that leads from the rule's start, and from the rule's end backwards, to the closest symbol that the rule recurses through.", "quantifier": "for every grammar with every recursive rule", "why_tests_cant": "depends on the whole derivation relation and on shortest strings, which tests sample", "anchors": ["cfg-classify/src/recursive.rs: RecursiveRules, Recursion::minimal_distances", "cfg-predict-distance/src/lib.rs: MinimalDistance"]}
{"id": "C88", "title": "Splitting rules keeps parse trees", "statement": "Limiting the length of right-hand sides, at once or while rules are added, keeps the parses: the parse trees of every symbol of the original grammar before and after correspond one to one, with the same strings, so that splitting rules makes no symbol ambiguous and no ambiguous symbol unambiguous.", "quantifier": "for every closed grammar, every limit of at least two, every added rule, every symbol and string", "why_tests_cant": "an infinite set of trees on both sides; counting the parses of a few strings in tests does not show a bijection", "anchors": ["cfg-grammar/src/cfg.rs: Cfg::limit_rhs_len, Cfg::add_rule"]}
{"id": "C89", "title": "Rearranging and pruning keeps parse trees", "statement": "Reversing, sorting, renaming symbols, and removing unused symbols and useless rules keep the parse trees of every root one to one (reversing reverses their strings), so ambiguity is kept; deduplicating rules never adds a parse.", "quantifier": "for every closed grammar, every order, every root and every string of terminals", "why_tests_cant": "quantifies over all parse trees, which are unbounded in number and depth", "anchors": ["cfg-grammar/src/cfg.rs: Cfg::reverse, Cfg::sort, Cfg::sort_by, Cfg::dedup", "cfg-classify/src/useful.rs: Usefulness::remove_useless_rules", "cfg-classify/src/lib.rs: CfgClassifyExt::make_proper", "cfg-symbol-bit-matrix/src/remap_symbols.rs: Remap::reorder_symbols, Remap::remove_unused_symbols"]}
{"id": "C90", "title": "Sequences are parsed in one way", "statement": "The rules that a sequence rule is rewritten to have exactly one parse tree for every sequence of allowed length and separation, and none for other strings.", "quantifier": "for every element and separator symbol, every valid range, every kind of separator, every limit on lengths of at least three", "why_tests_cant": "the rules are made by repeated halving of the range, so that whether two halves overlap depends on the bounds", "anchors": ["cfg-sequence/src/rewrite.rs: SequencesToProductions::rewrite, SequencesToProductions::reduce"]}
{"id": "C91", "title": "The readable text of a grammar", "statement": "stringify_to_bnf prints one line for each rule, in order; every symbol is shown by its number, with its name in front unless no symbol of the grammar has a name; two grammars with the same text have the same rules, and the same names for the symbols in them.", "quantifier": "for every grammar with any names", "why_tests_cant": "quantifies over all pairs of grammars and all names", "anchors": ["cfg-grammar/src/cfg.rs: Cfg::stringify_to_bnf", "cfg-symbol/src/source.rs: SymbolSource::name_of"]}
{"id": "C92", "title": "Eliminating nulling rules adds no ambiguity", "statement": "After binarize_and_eliminate_nulling_rules, two parse trees of one string of terminals stand for two parse trees of it in the original grammar, so no symbol becomes ambiguous; and if no symbol had two parses of the empty string, a symbol has two parses of some nonempty string afterwards exactly if it had before.", "quantifier": "for every closed grammar, every symbol of it, every string of its terminals", "why_tests_cant": "all parse trees of all strings", "anchors": ["cfg-grammar/src/cfg.rs: Cfg::binarize_and_eliminate_nulling_rules"]}
{"id": "C93", "title": "Operator tables are read in one way", "statement": "Take a precedence table whose alternatives have symbols between their operands, begin with different symbols or have different operators after a first operand (one symbol may do both, like a minus sign), have no operator after an inner operand, whose groups have symbols at both ends, and where no level mixes left and right associative operators. Then the grammar built for it has at most one parse tree for every string, whatever the number of levels: precedence and associativity resolve all ambiguity.", "quantifier": "all tables (any number of levels, alternatives, operands and symbols), all grammars without a limit on rule length, all strings", "why_tests_cant": "Uniqueness of a parse is a statement about all pairs of trees of all strings; tests can only compare the parses of the strings that they try.", "anchors": ["cfg-grammar/src/precedenced_rule.rs: PrecedencedRuleBuilder::rhs_with_history, lower_precedence, finalize, Associativity"]}
{"id": "C94", "title": "The allowed range of lengths is the range of stored lengths", "statement": "The range given by rule_rhs_len_allowed_range contains the lengths of all rules that the grammar stores after its lengths were limited: a rule with a length in the range is stored as it is given, and the rules of a limited grammar have lengths in the range. Without a limit the range contains all lengths.", "quantifier": "for all grammars, all limits from 2, all rules, all lengths", "why_tests_cant": "The range is half-open and a caller uses it to decide which rules the grammar keeps whole; whether its end is the first length that is split can only be seen from an argument about all rules and limits, not from a few added rules.", "anchors": ["cfg-grammar/src/cfg.rs: Cfg::rule_rhs_len_allowed_range", "cfg-grammar/src/cfg.rs: Cfg::limit_rhs_len", "cfg-grammar/src/cfg.rs: Cfg::add_rule"]}
{"id": "C95", "title": "Bytes as a deterministic source of values", "statement": "A source of values made from bytes gives, for successive calls of generate with any limits, the bytes in order, each scaled so that 255 is the limit, and zero after the last byte; values are from 0 to the limit. Starting an attempt takes one byte more than the quotient of its number by 256 and puts mixtures of these bytes with the number before everything else. Different attempts go on with different values.", "quantifier": "for all byte sequences, all sequences of limits, all attempt numbers", "why_tests_cant": "Fuzzers use recorded bytes to replay a generation; a test with a few bytes does not show the order of pushed and remaining bytes, what happens after the end, or that two attempts never repeat each other.", "anchors": ["cfg-generate/src/weighted/random.rs: ByteSource", "cfg-generate/src/weighted/random.rs: GenRange::generate", "cfg-generate/src/weighted/random.rs: GenRange::mutate_start"]}
{"id": "C96", "title": "What histories say where nothing was recorded", "statement": "A history says about each position of its rule which event is there, which position of which original rule it is and how far events are, or that these are unknown (no event: 0; the others: u32::MAX). Positions for which nothing was recorded are unknown: positions after the third, positions of new histories, and positions inside of split rules that are not positions of the original rule. Weights, precedences, sequences and single removed symbols do not change what is said about positions and about the original rule.", "quantifier": "for all histories, all processing steps, all rules, all positions", "why_tests_cant": "Unknown and recorded values have the same type, and zero is a valid rule number, position and distance; a test that reads a few positions cannot see that none of the unrecorded ones looks recorded.", "anchors": ["cfg-history/src/earley/mod.rs: History::new, History::dot, History::binarize, process_linked, process_root", "cfg-history/src/earley/rule_dot.rs: RuleDot::new, RuleDot::none"]}
{"id": "C97", "title": "Grammars that are written in Rust source", "statement": "The macro cfg_regexp! reads the grammar that is written between its parentheses. If the tokens are a grammar of the rich notation without faults, it expands to a parser of that grammar. Else it expands to a compile error, which is at the token of the error: the first token that cannot follow those before it, a token that is no word of the notation, the left-hand side that parser and lexer share, the name of a function that is not Regexp, or the regular expression that cannot be read. Tokens that are only the beginning of a grammar are an error of the whole call. The macro does not panic.", "quantifier": "for all streams of tokens and groups, wherever they are in the source, all regular expression parsers", "why_tests_cant": "Where an error is reported comes from how tokens are put on lines, joined and counted; a test has one layout of one grammar, and the expansion of a procedural macro is seldom inspected at all.", "anchors": ["cfg-regexp-macro/src/lib.rs: cfg_regexp, flatten, explicit_delimiters", "cfg-regexp-macro/src/process.rs: process", "cfg-load/src/advanced.rs: load_advanced, LoadError"]}
{"id": "C98", "title": "Rules that are written with names", "statement": "A list of names makes a rule: the first name is that of the left-hand side, the others are those of the right-hand side, in order, and each occurrence is a symbol of its own. Comparing a rule of a grammar, named with the grammar's symbol source, with a rule that is written in this way says whether the names of its symbols are these, regardless of their numbers, and whether the histories are the same if one is given. The empty list panics.", "quantifier": "for all lists of names shorter than the number of symbols, all rules whose symbols have an entry in the source, all histories", "why_tests_cant": "The comparison goes through two lists of names with different symbols in each; tests compare rules by this very comparison, so that an error in it makes other tests pass.", "anchors": ["cfg-grammar/src/cfg.rs: NamedCfgRule::new, NamedCfgRule::with_history, CfgRule::named, PartialEq for NamedCfgRule, named_cfg_rule"]}
{"id": "C99", "title": "Origins, events, distances, dotted rules and symbol sets are read as they were written", "statement": "Writing an original rule number, an event, a distance, an original rule position or a set of symbols as JSON, or one of the first four as bytes, and reading the result gives the same value, at any offset. What is read from any other text is in the text and fits in 32 bits, else reading fails; reading too few bytes fails. For a set that was read, membership of each symbol below its length can be asked.", "quantifier": "for all values, all JSON values, all byte strings and offsets", "why_tests_cant": "There are 2^32 values of each field and any number of malformed texts; a round trip of a few values cannot show what other inputs are read as.", "anchors": ["cfg-history/src/earley/mod.rs: ExternalOrigin, EventId, MinimalDistance, ExternalDottedRule", "cfg-grammar/src/symbol_bit_set.rs: SymbolBitSet"]}
{"id": "C100", "title": "A grammar prepared for a parser accepts exactly the inputs of the original", "statement": "Calling wrap_input, binarize_and_eliminate_nulling_rules, Cycles::rewrite_cycles and (twice) make_proper, in this order, on a grammar never panics and always returns. The result has one wrapped root per original root; from it, a string of original terminals and markers is derived exactly if it is the start marker, a string of the original root's language (the empty string included) and the end marker. No symbol derives the empty string, every right-hand side has one or two symbols, no cycle of unit rules is left and every rule takes part in a derivation of a terminal string from a root.", "quantifier": "for all grammars with any number of rules, roots, cycles, nullable and useless symbols, any length limit of two or more, and all strings", "why_tests_cant": "A test runs the passes on a few grammars and strings; whether one pass's result meets what the next one needs, for all grammars and all strings, cannot be enumerated.", "anchors": ["cfg-grammar/src/cfg.rs: Cfg::wrap_input, Cfg::binarize_and_eliminate_nulling_rules, Cfg::limit_rhs_len", "cfg-classify/src/cyclical.rs: Cycles::rewrite_cycles", "cfg-classify/src/lib.rs: CfgClassifyExt::make_proper"]}
{"id": "C101", "title": "A prepared grammar can be renumbered without losing its wrapped roots", "statement": "After a grammar has been prepared as in C100, any sequence of Remap calls returns; every wrapped root's symbols are mapped to symbols of the renumbered grammar, and through the returned mapping the renumbered wrapped root accepts exactly the inputs of the original root between the markers.", "quantifier": "for all grammars, all sequences of reorder and remove-unused calls and all strings", "why_tests_cant": "The interaction of cycle rewriting, which does not update roots, with renumbering shows only on grammars whose root is on a cycle; tests of single passes do not meet it.", "anchors": ["cfg-symbol-bit-matrix/src/remap_symbols.rs: Remap::remove_unused_symbols, Remap::reorder_symbols", "cfg-classify/src/cyclical.rs: Cycles::rewrite_cycles", "cfg-grammar/src/cfg.rs: Cfg::wrap_input, WrappedRoot"]}
{"id": "C102", "title": "What is classified LL(1) is unambiguous", "statement": "If the classification of a grammar reports a nonterminal as LL(1), then no string has two parse trees from that nonterminal. In particular, if the root of a grammar with wrapped input is reported LL(1), then the root symbol of the original grammar is unambiguous.", "quantifier": "for all closed grammars, all nonterminals reported LL(1), all strings and all pairs of parse trees", "why_tests_cant": "Ambiguity is a statement about all strings and all pairs of parse trees; tests only look at single tables", "anchors": ["cfg-classify/src/ll.rs:LlParseTable", "cfg-classify/src/ll.rs:LlClassification", "cfg-grammar/src/cfg.rs:wrap_input"]}
{"id": "C103", "title": "Without cycles each string has finitely many parse trees", "statement": "In a grammar without empty rules that cycle analysis reports as cycle free, each string has finitely many parse trees; each rule that is reported to be on a cycle gives every string of its left-hand side infinitely many. After wrapping, eliminating nulling rules, rewriting cycles and removing useless rules each input has finitely many parse trees.", "quantifier": "for all closed grammars, all symbols, all strings", "why_tests_cant": "The number of parse trees is a statement about all strings and all trees", "anchors": ["cfg-classify/src/cyclical.rs: Cycles::cycle_free, Cycles::cycle_participants, Cycles::rewrite_cycles", "cfg-symbol-bit-matrix/src/symbol_bit_matrix.rs: unit_derivation_matrix"]}
{"id": "C104", "title": "Wrapping keeps parse trees", "statement": "After wrap_input, each parse tree of a wrapped root corresponds to one parse tree of the original root for the same string between the start-of-input and end-of-input symbols, and the other way around: wrapping neither adds nor removes ambiguity.", "quantifier": "For all grammars whose rules and roots are symbols of the grammar, all roots, all strings.", "why_tests_cant": "A test can compare the parses of a few strings; it cannot show that no string gains or loses a parse.", "anchors": ["cfg-grammar/src/cfg.rs: Cfg::wrap_input"]}
{"id": "C105", "title": "Chained declarations are separate declarations", "statement": "Declaring several symbols in one chain of builder calls (rule, rhs, precedenced_rule, associativity, lower_precedence, finalize) gives the same grammar as declaring each of them with a builder of its own.", "quantifier": "For all grammars, all chains of plain and precedenced declarations, all calls within each.", "why_tests_cant": "There is an unbounded number of chains; the state that the builders hand over to each other at each change of builder matters.", "anchors": ["cfg-grammar/src/rule_builder.rs: RuleBuilder::rule, RuleBuilder::precedenced_rule", "cfg-grammar/src/precedenced_rule.rs: PrecedencedRuleBuilder::finalize, PrecedencedRuleBuilder::rule, PrecedencedRuleBuilder::precedenced_rule"]}
{"id": "C106", "title": "A preparation step needs not be made twice", "statement": "Limiting the length of right-hand sides, eliminating nulling rules, removing cycles, rewriting cycles, make_proper, sorting, deduplicating and removing unused symbols change nothing when they are called again on their own result, and reversing a grammar twice gives it back.", "quantifier": "For all grammars whose rules and roots use symbols of the grammar, all limits.", "why_tests_cant": "A test runs a step twice on one grammar; that there is nothing left to do afterwards concerns all grammars.", "anchors": ["cfg-grammar/src/cfg.rs: Cfg::limit_rhs_len, Cfg::binarize_and_eliminate_nulling_rules, Cfg::sort, Cfg::dedup, Cfg::reverse", "cfg-classify/src/cyclical.rs: Cycles::remove_cycles, Cycles::rewrite_cycles", "cfg-classify/src/lib.rs: make_proper", "cfg-symbol-bit-matrix/src/remap_symbols.rs: Remap::remove_unused_symbols"]}
{"id": "C107", "title": "Analyses depend on the set of rules only", "statement": "For two grammars with the same symbols that state the same rules, in any order and with any repetitions, the analyses give equal results: the sets of used, unused, terminal, nulling and left-hand-side symbols, the closures of symbol sets, the reachability and unit derivation matrices, usefulness, cycle freedom, the recursion kind of each rule, FIRST, LAST and FOLLOW sets, the LL(1) classes, the minimal sentence lengths and the minimal distances. Sorting or deduplicating the rules first changes nothing.", "quantifier": "all pairs of grammars whose symbols are issued and whose rules form the same set", "why_tests_cant": "Tests analyse a grammar in one order of its rules; that no order matters is a statement about all permutations", "anchors": ["cfg-grammar/src/symbol_bit_set.rs: SymbolBitSet", "cfg-symbol-bit-matrix/src/symbol_bit_matrix.rs: reachability_matrix", "cfg-classify/src/useful.rs: Usefulness", "cfg-predict-sets/src/first.rs: FirstSets::new", "cfg-classify/src/ll.rs: LlParseTable::classify", "cfg-predict-distance/src/lib.rs: MinimalDistance"]}
{"id": "C108", "title": "Analyses follow the renumbering of symbols", "statement": "When a grammar's symbols are renumbered (unused symbols removed, symbols sorted, in any sequence), every analysis of the renumbered grammar gives, for the new number of each symbol that occurs in a rule, what the analysis of the original gave for its old number: whether it is nulling, terminal, productive; which symbols it reaches and unit-derives; cycle freedom; usefulness of symbols and rules; FIRST, LAST and FOLLOW sets; its LL(1) class; its minimal sentence length, when both calculations return one.", "quantifier": "all grammars with issued symbols, all sequences of renumbering steps with any comparison functions, all symbols that occur in rules", "why_tests_cant": "Tests renumber one grammar and compare a few symbols; the claim covers every bijection that any comparison function produces", "anchors": ["cfg-symbol-bit-matrix/src/remap_symbols.rs: Remap", "cfg-grammar/src/cfg.rs: Cfg", "cfg-symbol-bit-matrix/src/symbol_bit_matrix.rs: reachability_matrix", "cfg-classify/src/useful.rs: Usefulness", "cfg-predict-sets/src/first.rs: FirstSets::new", "cfg-classify/src/ll.rs: LlParseTable::classify"]}
{"id": "C109", "title": "Analyses of a reversed grammar", "statement": "Reversing a grammar changes nothing in what the analyses say about sets of symbols (used, unused, terminal, nulling, left-hand sides), symbol-set closures, reachability, unit derivations, cycle freedom, usefulness and minimal sentence lengths (when both calculations return); it exchanges FIRST and LAST sets of each symbol, and the left and right flags of each recursive rule, rule by rule.", "quantifier": "all grammars with issued symbols", "why_tests_cant": "A test compares one grammar with its mirror image; that nothing else depends on the order within a right-hand side is a statement about all grammars", "anchors": ["cfg-grammar/src/cfg.rs: Cfg::reverse", "cfg-classify/src/recursive.rs: RecursionKind", "cfg-predict-sets/src/last.rs: LastSets", "cfg-predict-sets/src/first.rs: FirstSets::new", "cfg-symbol-bit-matrix/src/symbol_bit_matrix.rs: reachability_matrix"]}
{"id": "C110", "title": "Limiting the length of rules leaves the analyses of the symbols unchanged", "statement": "After limiting the right-hand-side length, every analysis says the same about each symbol of the original grammar: whether it is used, terminal, nulling, on a left-hand side, productive; which symbols of the original it reaches and unit-derives; whether the grammar is cycle-free; whether all rules are useful for given roots; its FIRST, LAST and FOLLOW sets; its minimal sentence length, when both calculations return.", "quantifier": "all grammars with issued symbols, all limits of at least two, all symbols of the original grammar", "why_tests_cant": "Splitting adds symbols and rules; tests look at one split grammar, not at the agreement of analyses for all grammars and limits", "anchors": ["cfg-grammar/src/cfg.rs: Cfg::limit_rhs_len", "cfg-predict-sets/src/first.rs: FirstSets::new", "cfg-predict-sets/src/follow.rs: FollowSets::new", "cfg-classify/src/useful.rs: Usefulness", "cfg-classify/src/cyclical.rs: Cycles"]}
{"id": "C111", "title": "The analyses agree with each other", "statement": "Two analyses of the same grammar never contradict each other. The same symbols are reported as vanishing by the FIRST sets, the LAST sets, the closure of the symbols with an empty rule and, when the calculation of minimal lengths returns, by a minimal length 0. A symbol is reported productive exactly if a minimal length is found for it. The list of useless rules is empty exactly if all rules are reported useful. The closure of one symbol is its column of the reachability matrix together with the symbol. Whatever begins or ends a symbol, or is derived from it by unit rules, is reachable from it. A grammar is reported cycle-free exactly if no rule takes part in a cycle, and exactly if no symbol unit-derives itself.", "quantifier": "for all grammars whose rules use existing symbols, all symbols, all rules and all lists of start symbols", "why_tests_cant": "A test compares the analyses on chosen grammars; a disagreement can need a particular interplay of empty rules, unit rules and recursion.", "anchors": ["cfg-predict-sets/src/first.rs: FirstSets::new", "cfg-predict-sets/src/last.rs: LastSets::new", "cfg-grammar/src/cfg.rs: rhs_closure_for_any, rhs_closure_for_all", "cfg-predict-distance/src/lib.rs: MinimalDistance::minimal_sentence_lengths", "cfg-classify/src/useful.rs: Usefulness::{productivity,all_useful,useless_rules}", "cfg-classify/src/cyclical.rs: Cycles", "cfg-symbol-bit-matrix/src/symbol_bit_matrix.rs: ReachabilityMatrix, UnitDerivationMatrix"]}
{"id": "C112", "title": "Rules for new symbols leave the earlier analyses unchanged", "statement": "If a grammar is extended by symbols and by rules for the new symbols only, then what the analyses say about the earlier symbols stays: which are terminal, have an empty rule, have rules, are productive; the reachability and unit-derivation entries between them (and no new symbol is reached from them); whether a rule of theirs is reachable, productive and useful from earlier roots; their FIRST and LAST sets; their minimal lengths (when both calculations return). A symbol in use stays in use, a cycle stays a cycle, FOLLOW sets only grow. wrap_input is such an extension under any length limit of at least 2, and adds to the FOLLOW set of a symbol exactly the end markers of those wrapped roots of which it can end a sentential form, in place of the mark for the end of input.", "quantifier": "all pairs of grammars with valid symbols where the second has the rules of the first and any rules for further symbols; all grammars with valid symbols for wrap_input", "why_tests_cant": "modular use of the analyses needs the claim for every extension; tests compare chosen pairs", "anchors": ["cfg-grammar/src/cfg.rs: wrap_input", "cfg-grammar/src/symbol_bit_set.rs: SymbolBitSet", "cfg-predict-sets/src/first.rs: FirstSets::new", "cfg-predict-sets/src/last.rs: LastSets::new", "cfg-predict-sets/src/follow.rs: FollowSets::new", "cfg-classify/src/useful.rs: Usefulness", "cfg-classify/src/cyclical.rs: Cycles", "cfg-symbol-bit-matrix/src/symbol_bit_matrix.rs: ReachabilityMatrix, UnitDerivationMatrix", "cfg-predict-distance/src/lib.rs: MinimalDistance::minimal_sentence_lengths"]}
{"id": "C113", "title": "Elimination of nulling rules keeps sentential forms, prediction sets and reachability", "statement": "After binarize_and_eliminate_nulling_rules, a symbol of the grammar derives a non-empty form made of symbols that can stand for a non-empty terminal string exactly if it did before. The FIRST, LAST and FOLLOW sets computed by the predictor of the remaining grammar contain no original terminal that they did not contain before, and no FIRST or LAST set has the mark for the empty string. If every symbol was productive, the sets lose no original terminal, the symbols without sets are those that derive only the empty string, and the reachability matrix has the same entries in the columns of the symbols that can stand for a non-empty string.", "quantifier": "for all grammars with rules over their own symbols, all symbols and all sentential forms; the converse inclusions for all grammars whose symbols are all productive", "why_tests_cant": "The sets and forms range over all derivations of all grammars; a test compares sets of a few grammars and cannot see that dropping a symbol on one side never creates or removes a neighbour.", "anchors": ["cfg-grammar/src/cfg.rs: Cfg::binarize_and_eliminate_nulling_rules", "cfg-predict-sets/src/first.rs: FirstSets::new", "cfg-predict-sets/src/follow.rs: FollowSets::new", "cfg-predict-sets/src/last.rs: LastSets::new", "cfg-symbol-bit-matrix/src/symbol_bit_matrix.rs: ReachabilityMatrix"]}
{"id": "C114", "title": "Deciding infinite ambiguity with empty rules", "statement": "A grammar, with or without empty rules, has only finitely many parse trees for every string exactly if, after binarize_and_eliminate_nulling_rules, no productive symbol of it derives itself in the unit derivation matrix of the remaining grammar, has a rule with only itself there, or reaches itself in the reachability matrix of the returned grammar of nulling rules. Each productive symbol for which one of the three holds has infinitely many parse trees for each of its strings.", "quantifier": "for all grammars with rules over their own symbols, all strings and all parse trees", "why_tests_cant": "It relates a computation on two derived grammars to the number of parse trees of all strings; no set of tested strings shows that trees are finite for all of them.", "anchors": ["cfg-grammar/src/cfg.rs: Cfg::binarize_and_eliminate_nulling_rules", "cfg-symbol-bit-matrix/src/symbol_bit_matrix.rs: UnitDerivationMatrix, ReachabilityMatrix"]}
{"id": "C115", "title": "The example grammars mean what they say", "statement": "Building the grammar of ambiguous_math succeeds; from its root it derives exactly the chains of decimal numbers with operators between them; a sentence with n operators has exactly as many parse trees as there are ways to put parentheses (the n-th Catalan number), so it has one parse tree exactly if n is at most one. Loading the grammar of C succeeds; each of its 239 rules is used in the derivation of some sentence from the root; each string has finitely many parse trees from each symbol; and it is ambiguous: there is a sentence with two parse trees (an else after two ifs).", "quantifier": "for all strings of symbols, of any length, and all numbers of operators", "why_tests_cant": "The test of the example crate asks one analysis about the C grammar and looks at a few results; it says nothing about the sentences or the number of their parse trees, which are infinitely many.", "anchors": ["cfg-examples/src/ambiguous_math.rs: grammar", "cfg-examples/src/c.rs: grammar"]}
{"id": "C116", "title": "Names of the symbols of a translated regular expression", "statement": "In the grammar made of a regular expression, a symbol has a name only if it stands for a byte b of a literal in the expression; the name is __byte followed by the decimal number of the byte, and the lexer map gives the symbol the class of that byte. The symbol with the class of a byte has the byte's name, unless the expression has a character class of the same two characters. No name is given twice.", "quantifier": "for all expressions that are translated, in debug and release builds, all symbols and bytes", "why_tests_cant": "Expressions are nested without bound, and whether two tokens share a symbol depends on the order in which they are met.", "anchors": ["cfg-regexp-logic/src/lib.rs: Translator::{cfg_from_hir,walk_hir}"]}
{"id": "C117", "title": "Which regular expressions are translated", "statement": "In debug builds the translation of a regular expression returns a grammar exactly for the expressions without look-around, without the byte 255, without a repetition of an expression that has no branch, and with numbers of repetitions that fit (start at most 2^31 + 1, fewer than 2^31 numbers after the first); it panics for all others. No build returns a grammar for look-around or for a repetition of an expression without branches. Every expression for which the language is proved (C51) is among them.", "quantifier": "all regular expressions with u32 counts", "why_tests_cant": "the accepted expressions are an infinite set given by structure, and the bounds of the counts come from arithmetic inside the splitting of sequence rules", "anchors": ["cfg-regexp-logic/src/lib.rs: Translator::cfg_from_hir, walk_hir", "cfg-sequence/src/rewrite.rs: SequencesToProductions::rewrite, reduce"]}
{"id": "C118", "title": "Weights are kept in thousandths", "statement": "A weight given to a rule as a floating-point number is kept as a whole number of thousandths that is less than one thousandth away from it; a NaN, zero or a negative weight as 0; a weight of 4294967.295 or more, and infinity, as 4294967295 thousandths. All parts that a rule is split into have its weight, and the weights of the productions of a symbol stay in order when rules are split. Random generation uses this weight. A weight with three decimals is kept exactly.", "quantifier": "all floating-point weights, rules, limits of the length of right-hand sides", "why_tests_cant": "the result depends on the rounding of a product and on a saturating conversion, for all 2^64 floating-point numbers", "anchors": ["cfg-history/src/earley/mod.rs: process_linked", "cfg-history/src/lib.rs: LinkedHistoryNode::Weight", "cfg-generate/src/weighted/weighted_rhs_by_lhs.rs: Weighted::weighted", "cfg-grammar/src/cfg.rs: Cfg::{add_rule,limit_rhs_len}"]}
{"id": "C119", "title": "Large bounds of a sequence rule cost few rules", "statement": "A sequence rule whose bounds are at most 2^k is rewritten into at most 10k + 27 rules with at most 5k + 14 new symbols, whatever its separator and the limit of the length of rules: the size grows with the logarithm of the bounds, not with the bounds.", "quantifier": "all grammars, sequence rules with accepted ranges, separators, limits, build modes", "why_tests_cant": "the number of rules depends on the sharing of equal subsequences over all 2^64 ranges; a test only measures a few of them", "anchors": ["cfg-sequence/src/rewrite.rs: SequencesToProductions::{rewrite,recurse,reduce}"]}
{"id": "C120", "title": "Elimination of nulling rules is linear in size", "statement": "Binarization and elimination of nulling rules leave at most three rules for each rule of the binarized grammar, and return at most one for each; a right-hand side of n symbols counts as max(1, n - 1) binarized rules. The new symbols are one for each symbol beyond the second in right-hand sides, and both grammars have the same symbols. Rules with many nullable symbols do not blow up exponentially.", "quantifier": "all grammars with rules over their symbols", "why_tests_cant": "the textbook algorithm has 2^n rules for n nullable symbols; tests cannot show that no grammar has this effect", "anchors": ["cfg-grammar/src/cfg.rs: Cfg::binarize_and_eliminate_nulling_rules", "cfg-grammar/src/cfg.rs: Cfg::limit_rhs_len"]}
{"id": "C121", "title": "Bytes choose productions in proportion to their weights", "statement": "With the source that reads bytes, each choice between two or more productions uses up one byte. Of the 256 bytes, the number that choose a production is 255 times its share of the total weight, up to an error of about one byte, and a larger byte never chooses an earlier production. So uniformly random bytes follow the weights to within 1/255; a production with a smaller share may never be chosen.", "quantifier": "all grammars with up to 2^30 rules, all weights with a positive total, all productions and bytes", "why_tests_cant": "the counts depend on rounding in sums of any length and on a binary search in a list of any length", "anchors": ["cfg-generate/src/weighted/random.rs: ByteSource::generate", "cfg-generate/src/weighted/weighted_rhs_by_lhs.rs: pick_rhs"]}
{"id": "C122", "title": "Without useless rules, prediction sets speak of sentences", "statement": "If make_proper finds nothing to remove, FIRST and LAST of a nonterminal are exactly the first and last symbols of its sentences, the empty mark says that the empty string is one of them, and FOLLOW has exactly the terminals that come directly after a part derived from the nonterminal in a sentence of a root. Two calls of make_proper bring every grammar into this form; then FIRST and LAST of a productive root tell how the sentences of the original grammar begin and end.", "quantifier": "all grammars with rules and roots over their symbols, all nonterminals, all terminals", "why_tests_cant": "the sets speak of infinitely many sentences; with useless rules they contain symbols that begin no sentence", "anchors": ["cfg-predict-sets/src/first.rs: FirstSets::new", "cfg-predict-sets/src/last.rs: LastSets::new", "cfg-predict-sets/src/follow.rs: FollowSets::new", "cfg-classify/src/lib.rs: CfgClassifyExt::make_proper"]}
{"id": "C123", "title": "Regular expressions translate to small grammars", "statement": "The grammar that a regular expression is translated to has at most one rule for each part of the expression and 10 k + 27 more for each repetition, when all counts are at most 2^k; it has at most two symbols for each part and 5 k + 14 more for each repetition. Nested alternatives, groups and repetitions do not multiply, and large counts such as {3,1000} cost a logarithmic number of rules.", "quantifier": "all supported regular expressions of any depth, all counts", "why_tests_cant": "tests have few expressions; a translation that copies parts would only be noticed for nested ones", "anchors": ["cfg-regexp-logic/src/lib.rs: Translator::cfg_from_hir", "cfg-regexp-logic/src/lib.rs: Translator::walk_hir", "cfg-sequence/src/rewrite.rs: SequencesToProductions::rewrite"]}
{"id": "C124", "title": "The prepared grammar is linear in size", "statement": "Wrapping the roots, eliminating nulling rules, rewriting cycles and making the grammar proper two times leaves at most three rules for each pair of neighbours in right-hand sides (at least one pair for each rule) and six for each root. The grammar has one symbol more for each symbol beyond the second in a right-hand side and four more for each root, whatever the limit for right-hand sides was.", "quantifier": "all grammars with rules and roots over their symbols and every limit of at least two", "why_tests_cant": "each pass adds or removes rules; that the passes together do not blow up for any grammar cannot be seen from examples", "anchors": ["cfg-grammar/src/cfg.rs: Cfg::wrap_input", "cfg-grammar/src/cfg.rs: Cfg::binarize_and_eliminate_nulling_rules", "cfg-classify/src/cyclical.rs: Cycles::rewrite_cycles", "cfg-classify/src/lib.rs: CfgClassifyExt::make_proper"]}
{"id": "C125", "title": "The precedence builder adds one rule for each alternative", "statement": "A chain of calls of the precedence builder adds one rule for each alternative, one for each step to a lower precedence and one for the operand symbol, and one symbol for each level of precedence. In a grammar with a limit for right-hand sides the same holds, where an alternative of n symbols counts as max(1, n - 1) pairs of neighbours.", "quantifier": "all grammars, operand symbols and chains of calls, and every limit of at least two", "why_tests_cant": "groups are kept back until the end and other alternatives are added at once; that none is lost or added twice in any order of calls is not seen from examples", "anchors": ["cfg-grammar/src/precedenced_rule.rs: PrecedencedRuleBuilder::rhs_with_history", "cfg-grammar/src/precedenced_rule.rs: PrecedencedRuleBuilder::lower_precedence", "cfg-grammar/src/precedenced_rule.rs: PrecedencedRuleBuilder::finalize"]}
{"id": "C126", "title": "From the text of a file to accepted and generated strings", "statement": "When the text of a BNF file is loaded and the grammar is prepared for a parser (C100), the one wrapped root accepts, between the two markers, exactly the sentences that the file describes for its first name, as strings of names that have no rules; symbols are told by their names. Every string that is generated at random from the loaded grammar's root is such a sentence.", "quantifier": "all texts of BNF files, all strings of names, all sources of random values", "why_tests_cant": "it is about infinitely many strings and the composition of six passes over all files", "anchors": ["cfg-load/src/basic.rs: load", "cfg-grammar/src/cfg.rs: Cfg::wrap_input, Cfg::binarize_and_eliminate_nulling_rules", "cfg-classify/src/lib.rs: CfgClassifyExt::make_proper", "cfg-classify/src/cyclical.rs: Cycles::rewrite_cycles", "cfg-generate/src/weighted/random.rs: Random::random"]}
{"id": "C127", "title": "From a regular expression to accepted and generated texts", "statement": "When a regular expression made of usual character classes (as in C69) is translated, its lexer map computed and its grammar prepared for a parser (C100), then the one wrapped root accepts between the markers some string of symbols that the lexer map lists for the characters of a text exactly if the expression matches the text. If no class is empty, and each generated symbol is written as any character that the lexer map lists it for, then every text that is generated at random from the grammar's root is matched by the expression.", "quantifier": "all such expressions, all texts, all sources of random values, all ways to choose characters", "why_tests_cant": "it is about infinitely many texts and the composition of the translation, the lexer map and the passes over all expressions", "anchors": ["cfg-regexp-logic/src/lib.rs: Translator::cfg_from_hir, LexerMap::compute, LexerMap::get", "cfg-grammar/src/cfg.rs: Cfg::wrap_input, Cfg::binarize_and_eliminate_nulling_rules", "cfg-classify/src/lib.rs: CfgClassifyExt::make_proper", "cfg-generate/src/weighted/random.rs: Random::random"]}
{"id": "C128", "title": "From a file in the rich notation to accepted and generated strings", "statement": "When a file in the rich notation is loaded and its grammar prepared for a parser (C100), the one wrapped root accepts between the markers exactly the strings of terminals that the rules of the file describe for their first left-hand side (C77): names, repeated names, the characters of strings, and what regular expressions match. Every string that is generated at random from the symbol of a name is described by the rules for that name. The file has no names of the loader's own (C77).", "quantifier": "all such files, all strings of terminals, all names, all sources of random values", "why_tests_cant": "it is about infinitely many strings and the composition of the loader and the passes over all files", "anchors": ["cfg-load/src/advanced.rs: load_advanced", "cfg-grammar/src/cfg.rs: Cfg::wrap_input, Cfg::binarize_and_eliminate_nulling_rules", "cfg-classify/src/cyclical.rs: Cycles::rewrite_cycles", "cfg-classify/src/lib.rs: CfgClassifyExt::make_proper", "cfg-generate/src/weighted/random.rs: Random::random"]}
{"id": "C129", "title": "What is classified LL(1) is parsed with one symbol of lookahead", "statement": "If the classification of a grammar reports a nonterminal as LL(1), then a parser that works from the top down and looks at one symbol of the input, with the sets FIRST and FOLLOW that describe the table, never has a choice between two steps, always ends, and accepts only strings of the nonterminal. If the root of a grammar with wrapped input is reported LL(1), the parser accepts between the markers exactly the sentences of the original root.", "quantifier": "for all closed grammars, all nonterminals reported LL(1), all inputs and all runs of the parser", "why_tests_cant": "It is about all inputs and all runs, of unbounded length; a test parses single inputs", "anchors": ["cfg-classify/src/ll.rs:LlParseTable", "cfg-classify/src/ll.rs:LlClassification", "cfg-grammar/src/cfg.rs:wrap_input"]}
{"id": "C130", "title": "A retry after a forbidden text starts over from the negative symbol", "statement": "When random generation meets the forbidden text of a negative symbol, it generates the rest again from the source as it was at the negative symbol, changed by the number of the retry (0, 1, ...), and forgets all that the failed attempt did. So for a start rule S ::= N T with a negative symbol N and a T that cannot reach N, the call returns what generation from T without negative rules returns for the first of the sources (unchanged, changed by 0, changed by 1, ...) whose text does not start with the forbidden one; and if all of the first 16385 texts start with it, the error for too many attempts.", "quantifier": "for all random sources, functions that change them, functions to characters, grammars, limits and forbidden texts that are not empty", "why_tests_cant": "Which part of the state is put back (source, result, text, work) is seen only by comparing whole runs; a test sees that some allowed text came out.", "anchors": ["cfg-generate/src/weighted/random.rs: Random::random", "cfg-generate/src/weighted/random.rs: BacktrackState", "cfg-generate/src/weighted/random.rs: GenRange::mutate_start"]}
{"id": "C131", "title": "Negative rules that matter for random generation", "statement": "Random generation depends on the negative rules only through the last forbidden text given for each symbol that has rules and can be reached from the start symbol. Negative rules for terminals or unreachable symbols change nothing, an earlier negative rule for a symbol is replaced by a later one, and the order of negative rules for different symbols does not matter: the outcome of the call (generated text, exceeded limit, too many attempts, panic) is the same for the same source of randomness.", "quantifier": "all grammars whose rules use symbols of the grammar, start symbols, limits, sources of randomness, character functions and lists of negative rules", "why_tests_cant": "The claim compares two calls for every source of randomness and every list of negative rules, with any number of retries.", "anchors": ["cfg-generate/src/weighted/random.rs: Random::random", "cfg-generate/src/weighted/random.rs: NegativeRule"]}
{"id": "C132", "title": "Rules that matter for random generation", "statement": "Random generation from a start symbol depends on a grammar only through the right-hand sides, with their weights (1000 if none was set) and in their order, of the symbols that can be reached from the start symbol. Two grammars that agree on these give the same outcome (generated text, exceeded limit, too many attempts, panic) for the same source of randomness and negative rules. So leaving out rules of unreachable symbols, adding rules of unreachable symbols, moving rules of different symbols past each other, adding symbols and changing histories apart from weights do not change what is generated.", "quantifier": "all pairs of grammars whose rules use symbols of the grammar, start symbols of both, limits, sources of randomness, character functions and lists of negative rules", "why_tests_cant": "The claim compares generation from two grammars for every source of randomness; a test sees single grammars and a few sources.", "anchors": ["cfg-generate/src/weighted/random.rs: Random::random", "cfg-generate/src/weighted/weighted_rhs_by_lhs.rs: Weighted::weighted", "cfg-generate/src/weighted/weighted_rhs_by_lhs.rs: WeightedRhsByLhs::pick_rhs"]}
{"id": "C133", "title": "The limit of random generation only cuts off", "statement": "With a smaller limit on the number of terminals, random generation has the same outcome as with a larger one or with none, or reports that the limit was exceeded. So a generated text does not change when the limit is raised or dropped. Without negative rules, a text is generated with a limit exactly if it is generated without one and has no more terminals than the limit.", "quantifier": "all grammars (with rules over symbols of the grammar for the last claim), start symbols, pairs of limits, sources of randomness, character functions and, except for the last claim, lists of negative rules", "why_tests_cant": "The claim compares calls with different limits for every source of randomness and any number of retries; the boundary of the limit must be right for every length.", "anchors": ["cfg-generate/src/weighted/random.rs: Random::random", "cfg-generate/src/weighted/random.rs: Limits"]}
