{
 "claims": [
  {
   "property": "C01",
   "status": "proved",
   "theorems": [
    "C01_cfg_sym",
    "C01_new_symbols",
    "C01_no_early_panic",
    "C01_exhaustion_panics",
    "C01_generate_fresh",
    "C01_u32_saturates"
   ],
   "note": "All widths, debug and release builds. C01_u32_saturates records that a 32 bit source in a release build repeats the last symbol once 2^32-1 symbols exist (outside of the claim)."
  },
  {
   "property": "C02",
   "status": "proved",
   "theorems": [
    "C02_names_attached",
    "C02_truncated_forgotten",
    "C02_enlarging_truncate_shifts_names",
    "C02_truncate"
   ],
   "note": "Histories of creations and truncations from a new source; truncations must not enlarge (C02_enlarging_truncate_shifts_names shows what happens then)."
  },
  {
   "property": "C03",
   "status": "proved",
   "theorems": [
    "C03_roundtrip",
    "C03_rejects_others",
    "C03_reads_valid"
   ],
   "note": ""
  },
  {
   "property": "C04",
   "status": "proved",
   "theorems": [
    "C04_translate_composes",
    "C04_translate_total",
    "C04_translate_inverse",
    "C04_new"
   ],
   "note": ""
  },
  {
   "property": "C05",
   "status": "proved",
   "theorems": [
    "C05_used",
    "C05_unused",
    "C05_terminal",
    "C05_nulling",
    "C05_nulling_adds",
    "C05_productive",
    "C05_productive_adds",
    "C05_subtract_productive",
    "C05_iter",
    "C05_negate",
    "C05_union",
    "C05_all",
    "C05_reserve"
   ],
   "note": "Grammars whose rules use only symbols of their source."
  },
  {
   "property": "C06",
   "status": "proved",
   "theorems": [
    "C06_for_all",
    "C06_for_any",
    "C06_least"
   ],
   "note": "Grammars whose rules use only symbols of their source; sets with space for all symbols."
  },
  {
   "property": "C07",
   "status": "proved",
   "theorems": [
    "C07_terminates",
    "C07_minimal",
    "C07_no_overflow"
   ],
   "note": "u32 values; overflow of a sum panics (debug) or wraps (release), see C07_overflow_example."
  },
  {
   "property": "C08",
   "status": "partial",
   "theorems": [
    "C08_inverted_partial",
    "C08_refuted"
   ],
   "note": "False as stated: the code returns the opposite (C08_refuted, for every set)."
  },
  {
   "property": "C09",
   "status": "proved",
   "theorems": [
    "C09_limit_language",
    "C09_limit_derives",
    "C09_add_rule_language"
   ],
   "note": "Grammar closed under its own source; limit None or >= 2."
  },
  {
   "property": "C10",
   "status": "proved",
   "theorems": [
    "C10_length_enforced",
    "C10_parts",
    "C10_idempotent"
   ],
   "note": ""
  },
  {
   "property": "C11",
   "status": "partial",
   "theorems": [
    "C11_terminates_partial",
    "C11_small_limits",
    "C11_refuted",
    "C11_loss_refuted"
   ],
   "note": "False as stated: limits 0 and 1 loop forever on longer rules (C11_refuted), limit 0 drops empty rules (C11_loss_refuted). Proved: exact behaviour for limits 0 and 1, termination for all others."
  },
  {
   "property": "C12",
   "status": "partial",
   "theorems": [
    "C12_step",
    "C12_closed_partial",
    "C12_unused_root_refuted"
   ],
   "note": "OpsModel lists the modelled operations as a datatype. C12_step: every operation that does not renumber keeps the grammar closed, given symbols issued by the grammar. C12_closed_partial: any sequence, with renumbering when roots are used. Refuted: remove_unused_symbols with a root that no rule uses leaves a root outside the issued range."
  },
  {
   "property": "C13",
   "status": "proved",
   "theorems": [
    "C13_total",
    "C13_language"
   ],
   "note": "Every grammar whose rules use only symbols of its source; strings over symbols of the grammar without rules."
  },
  {
   "property": "C14",
   "status": "proved",
   "theorems": [
    "C14_no_empty_rules",
    "C14_returned",
    "C14_returned_only_empty"
   ],
   "note": ""
  },
  {
   "property": "C15",
   "status": "partial",
   "theorems": [
    "C15_terminals_partial",
    "C15_refuted"
   ],
   "note": "False as stated (C15_refuted): a rule that mentions a symbol with only the empty rule is kept while the symbol's rules are dropped. Proved: only symbols that derive no non-empty terminal string can become terminals."
  },
  {
   "property": "C16",
   "status": "partial",
   "theorems": [
    "C16_history_partial",
    "C16_refuted"
   ],
   "note": "False as stated (C16_refuted) when both symbols of a rule are nullable. Proved: exact description of all histories."
  },
  {
   "property": "C17",
   "status": "partial",
   "theorems": [
    "C17_exact_partial",
    "C17_refuted"
   ],
   "note": "False as stated (C17_refuted). Proved: the exact positions that are recorded; origin and trace ids are right, positions are not."
  },
  {
   "property": "C18",
   "status": "proved",
   "theorems": [
    "C18_wrap_input",
    "C18_names"
   ],
   "note": "limit None or >= 2"
  },
  {
   "property": "C19",
   "status": "partial",
   "theorems": [
    "C19_unwrapped",
    "C19_wrapped_partial",
    "C19_refuted"
   ],
   "note": "False under limit 2 (C19_refuted). Proved for unwrapped grammars and for wrapped ones without limit or with a limit >= 3."
  },
  {
   "property": "C20",
   "status": "proved",
   "theorems": [
    "C20_reverse_language",
    "C20_reverse_twice"
   ],
   "note": ""
  },
  {
   "property": "C21",
   "status": "proved",
   "theorems": [
    "C21_sort",
    "C21_sort_stable",
    "C21_dedup",
    "C21_sort_dedup_no_repeats",
    "C21_same_derivations",
    "C21_sort_by_permutes"
   ],
   "note": ""
  },
  {
   "property": "C22",
   "status": "partial",
   "theorems": [
    "C22_equivalent_partial",
    "C22_refuted"
   ],
   "note": "False as stated (C22_refuted): prefixes are equivalent. Proved when the numbers of rules and their lengths agree."
  },
  {
   "property": "C23",
   "status": "proved",
   "theorems": [
    "C23_column"
   ],
   "note": ""
  },
  {
   "property": "C24",
   "status": "proved",
   "theorems": [
    "C24_derives",
    "C24_language",
    "C24_unchanged"
   ],
   "note": "Exact for every string over the symbols that existed before the build, whatever the length limit; the language version needs an alternative on the tightest level (else that level's symbol is itself a terminal)."
  },
  {
   "property": "C25",
   "status": "proved",
   "theorems": [
    "C25_sound"
   ],
   "note": ""
  },
  {
   "property": "C26",
   "status": "partial",
   "theorems": [
    "C26_loose_levels_partial",
    "C26_tightest_refuted"
   ],
   "note": "Proved for levels above the tightest; refuted on the tightest level, whose other operands stay on the same level."
  },
  {
   "property": "C27",
   "status": "partial",
   "theorems": [
    "C27_language_partial",
    "C27_derives_partial",
    "C27_complete_partial",
    "C27_one_or_more_refuted"
   ],
   "note": "Exact for every valid range, separator and grammar, except lhs ::= x{1..} (no separator or a proper one) when lhs has other productions: there the added left recursion also extends those (refuted)."
  },
  {
   "property": "C28",
   "status": "proved",
   "theorems": [
    "C28_terminates",
    "C28_local",
    "C28_terminals",
    "C28_reversed_range_panics",
    "C28_accepted",
    "C28_reversed_range_release"
   ],
   "note": "Valid: start <= 2^31 + 1, fewer than 2^31 numbers after the first (0 not counted), n..=n for n <= 2^31. C28_accepted: in debug builds exactly these u32 ranges are accepted, all others panic. Also: of the old symbols only lhs becomes a nonterminal, and a reversed range that release builds accept."
  },
  {
   "property": "C29",
   "status": "partial",
   "theorems": [
    "C29_bounds_partial",
    "C29_wrap_refuted",
    "C29_wrap_start_refuted"
   ],
   "note": "Exact except for the bounds Excluded(0) as end and Excluded(u32::MAX) as start, which wrap (refuted)."
  },
  {
   "property": "C30",
   "status": "proved",
   "theorems": [
    "C30_reachability",
    "C30_reflexive",
    "C30_unit"
   ],
   "note": "The bit-matrix crate is modelled by its documented effect (Warshall closure over rows)."
  },
  {
   "property": "C31",
   "status": "proved",
   "theorems": [
    "C31_productive",
    "C31_rule",
    "C31_useless_rules"
   ],
   "note": "Productive, reachable, useful, all_* and the list of useless rules are exact."
  },
  {
   "property": "C32",
   "status": "proved",
   "theorems": [
    "C32_remove_useless",
    "C32_make_proper",
    "C32_rules_kept"
   ],
   "note": "For strings of the original terminals for every root; for the new grammar's own terminals when the root is productive (C32_unproductive_root shows why)."
  },
  {
   "property": "C33",
   "status": "partial",
   "theorems": [
    "C33_refuted",
    "C33_one_pass_partial",
    "C33_two_passes_partial"
   ],
   "note": "Refuted: one call can leave a rule that became unreachable. Proved: two calls suffice and a third returns true; one call suffices when every symbol reached from a root is productive."
  },
  {
   "property": "C34",
   "status": "partial",
   "theorems": [
    "C34_cycle_free",
    "C34_classify",
    "C34_removed",
    "C34_rewritten",
    "C34_stale_answer_refuted"
   ],
   "note": "Exact for a new analysis object. Refuted for the object the removal was made with: it keeps its cached answer."
  },
  {
   "property": "C35",
   "status": "partial",
   "theorems": [
    "C35_refuted",
    "C35_renamed_partial",
    "C35_root_partial",
    "C35_rules_partial",
    "C35_language_partial"
   ],
   "note": "Refuted: roots are not renamed. Proved: each symbol's language is that of its cycle's representative afterwards; roots on no cycle keep their language."
  },
  {
   "property": "C36",
   "status": "partial",
   "theorems": [
    "C36_recursive",
    "C36_positions",
    "C36_direct_left",
    "C36_left_sound_refuted",
    "C36_left_complete_refuted",
    "C36_left_complete_partial"
   ],
   "note": "Recursive/not and positions are exact; 'left' as textbook left recursion is refuted in both directions; complete for rules whose first symbol does not derive the empty string."
  },
  {
   "property": "C37",
   "status": "proved",
   "theorems": [
    "C37_reorder",
    "C37_language"
   ],
   "note": "For grammars whose rules fit their right-hand-side limit, with one name entry per symbol (both hold in states built through the API), and a total preorder as comparison."
  },
  {
   "property": "C38",
   "status": "partial",
   "theorems": [
    "C38_remove_unused_partial",
    "C38_no_rules_refuted",
    "C38_unused_root_refuted"
   ],
   "note": "Proved for grammars with at least one rule; a grammar without rules panics and a root used in no rule is left dangling (both refutations proved)."
  },
  {
   "property": "C39",
   "status": "proved",
   "theorems": [
    "C39_mapping",
    "C39_returns",
    "C39_language"
   ],
   "note": "Any sequence of reorder/remove_unused calls that returns; sequences always return when roots occur in rules. A direct remap_symbols call does not update the mapping (it is not one of the operations)."
  },
  {
   "property": "C40",
   "status": "proved",
   "theorems": [
    "C40_first_exact"
   ],
   "note": "FIRST sets computed by the fixpoint loop are sorted, have one entry per nonterminal and are exact against derivations; the loop ends."
  },
  {
   "property": "C41",
   "status": "proved",
   "theorems": [
    "C41_last_exact"
   ],
   "note": "Same as FIRST for the reversed grammar, stated with ends."
  },
  {
   "property": "C42",
   "status": "partial",
   "theorems": [
    "C42_follow_partial",
    "C42_end_marker_refuted"
   ],
   "note": "Symbols exact; the end marker is set exactly on the roots, so it is sound but not complete: C42_end_marker_refuted gives a nonterminal that ends a sentential form of a root without it."
  },
  {
   "property": "C43",
   "status": "partial",
   "theorems": [
    "C43_first_string_partial",
    "C43_sound_partial",
    "C43_nullable_refuted",
    "C43_empty_marker_refuted"
   ],
   "note": "Refuted for strings that start with nullable symbols (C43_nullable_refuted, C43_empty_marker_refuted). C43_first_string_partial: exact for strings in which each symbol that comes first, or after symbols that vanish, is nullable exactly when nothing begins it. C43_sound_partial: nothing wrong is reported for strings of productive symbols."
  },
  {
   "property": "C44",
   "status": "partial",
   "theorems": [
    "C44_ll1_partial",
    "C44_ll1_refuted"
   ],
   "note": "Refuted: a nonterminal whose two rules both start with x is reported LL(1). C44_ll1_partial: no panic; non-LL(1) reports are right if all symbols are productive; exact if moreover no rule starts, after symbols that vanish, with a symbol that is nullable and begins with a terminal."
  },
  {
   "property": "C45",
   "status": "partial",
   "theorems": [
    "C45_lengths_exact_partial",
    "C45_lengths_total_partial",
    "C45_lengths_refuted"
   ],
   "note": "Proved for debug builds whenever no sum overflows, and also totality under an explicit no-overflow condition; refuted otherwise: sums of longer, non-minimal strings can overflow although every shortest length fits (debug panics, release reports 0 for a symbol whose shortest string has length 1)."
  },
  {
   "property": "C46",
   "status": "partial",
   "theorems": [
    "C46_distances_realized_partial",
    "C46_distances_at_starts_partial",
    "C46_terminates",
    "C46_release_partial",
    "C46_no_panic_partial",
    "C46_backward_refuted",
    "C46_no_panic_refuted"
   ],
   "note": "Every value reported after any sequence of calls is characterised; the claim holds when backward targets are at rule starts (and always for forward). Refuted: a backward target at position p>0 writes its own rule's values p positions too low; a right-hand side symbol without terminal strings makes it panic. Termination in both builds, no panic under stated bounds, release equals debug."
  },
  {
   "property": "C47",
   "status": "proved",
   "theorems": [
    "C47_language",
    "C47_chars"
   ],
   "note": "all sources, weights, limits"
  },
  {
   "property": "C48",
   "status": "partial",
   "theorems": [
    "C48_ends_partial",
    "C48_ends_refuted"
   ],
   "note": "refuted for left recursion; proved to end without left recursion, for every source and negative rules"
  },
  {
   "property": "C49",
   "status": "partial",
   "theorems": [
    "C49_single_partial",
    "C49_apart_partial",
    "C49_terminals_partial",
    "C49_stale_refuted"
   ],
   "note": "refuted (stale backtracking state); proved for at most one negative symbol, and for many that are far apart"
  },
  {
   "property": "C50",
   "status": "partial",
   "theorems": [
    "C50_get_partial",
    "C50_class_ranges",
    "C50_byte_refuted",
    "C50_last_byte_refuted",
    "C50_same_symbol_refuted",
    "C50_uncomputed_refuted"
   ],
   "note": "Full claim refuted for literal bytes, tables with one symbol for two classes, and before compute; proved otherwise whenever compute returns. C50_last_byte_refuted: the literal byte 255 panics in debug builds and in release builds is met by every character from 255 on."
  },
  {
   "property": "C51",
   "status": "partial",
   "theorems": [
    "C51_language_partial",
    "C51_count_refuted",
    "C51_count_release_refuted"
   ],
   "note": "Proved for all expressions without look-around with counts that fit (about 2^31, see C117) and non-empty alternations; beyond that the translation panics in debug builds (refuted). The regex_syntax parser is not modelled: expressions are its HIR."
  },
  {
   "property": "C52",
   "status": "proved",
   "theorems": [
    "C52_language",
    "C52_plain"
   ],
   "note": ""
  },
  {
   "property": "C53",
   "status": "proved",
   "theorems": [
    "C53_tokens"
   ],
   "note": ""
  },
  {
   "property": "C54",
   "status": "proved",
   "theorems": [
    "C54_tokens",
    "C54_only"
   ],
   "note": ""
  },
  {
   "property": "C55",
   "status": "proved",
   "theorems": [
    "C55_injective"
   ],
   "note": ""
  },
  {
   "property": "C56",
   "status": "partial",
   "theorems": [
    "C56_closure_partial",
    "C56_closure_stored_partial",
    "C56_advance_partial",
    "C56_closure_refuted"
   ],
   "note": "Refuted in general: the map holds one item per rule, so closing S ::= a . S overwrites the given item with S ::= . a S, and a replaced rule is not queued, so rules are missing. Positive part: never fails, sound in all cases, exact when the textbook closure has at most one item per rule, and the exact entries of the result in every case."
  },
  {
   "property": "C57",
   "status": "proved",
   "theorems": [
    "C57_automaton"
   ],
   "note": "Links, node 0, distinctness and reachability of the nodes, termination and no panic."
  },
  {
   "property": "C58",
   "status": "partial",
   "theorems": [
    "C58_chain",
    "C58_binarize_partial",
    "C58_eliminate_partial",
    "C58_precedence_partial",
    "C58_sequence_partial",
    "C58_limit_refuted",
    "C58_sequence_refuted",
    "C58_separator_refuted"
   ],
   "note": "C58_chain: for every chain of history nodes, the origin is the one given unless some part was split off. Rules after limiting to two symbols, nulling elimination and precedence: one completing rule keeps the origin, helpers have none. Sequences: details recorded on every added rule, separator only if trailing. Refuted: limits other than 2 copy the origin to every part, and sequences given a history copy it to the helpers; separators between elements are not recorded."
  },
  {
   "property": "C59",
   "status": "partial",
   "theorems": [
    "C59_meaning",
    "C59_reflexive_symmetric_partial",
    "C59_transitive_partial",
    "C59_refuted"
   ],
   "note": "Not transitive (C59_refuted) because a missing history equals every history. Reflexive and symmetric; transitive when the middle rule has a history."
  },
  {
   "property": "C60",
   "status": "partial",
   "theorems": [
    "C60_calls_partial",
    "C60_documented_partial",
    "C60_no_rule_panics",
    "C60_overwrite_refuted"
   ],
   "note": "Exact for all call sequences with the history kept; the documented overwriting by rhs_with_history is refuted."
  },
  {
   "property": "C61",
   "status": "partial",
   "theorems": [
    "C61_vec_partial",
    "C61_cfg_partial",
    "C61_panics",
    "C61_documented_partial",
    "C61_overwrite_refuted"
   ],
   "note": "A waiting history is kept by rhs_with_history instead of overwritten (refuted); otherwise as documented."
  },
  {
   "property": "C62",
   "status": "partial",
   "theorems": [
    "C62_items_valid_partial",
    "C62_items_complete_refuted"
   ],
   "note": "Sound for all paths (with productive symbols); completeness refuted: there are no links over nonterminals and overwritten items are lost."
  },
  {
   "property": "C63",
   "status": "partial",
   "theorems": [
    "C63_interval_partial",
    "C63_bounds_partial",
    "C63_zero_weight_refuted"
   ],
   "note": "weight zero can be picked (value 0); intervals proved for floating-point sums, up to a relative rounding error of n / 2^52 after n weights"
  },
  {
   "property": "C64",
   "status": "proved",
   "theorems": [
    "C64_every_sentence"
   ],
   "note": "The bound on the weights keeps the rounding errors of the sums smaller than the smallest weight."
  },
  {
   "property": "C65",
   "status": "partial",
   "theorems": [
    "C65_attempts_ignored_partial",
    "C65_attempts_refuted"
   ],
   "note": "refuted: the limit is never read"
  },
  {
   "property": "C66",
   "status": "partial",
   "theorems": [
    "C66_no_panic_partial",
    "C66_no_panic_negative_partial",
    "C66_bytes_partial",
    "C66_no_panic_refuted"
   ],
   "note": "refuted with two negative rules; proved without, and under the conditions of C49; C66_bytes_partial: the source of bytes meets the condition if all weights are positive"
  },
  {
   "property": "C67",
   "status": "partial",
   "theorems": [
    "C67_condition_partial",
    "C67_expression_refuted"
   ],
   "note": "Refuted for [^a] and others; the exact condition for a panic is proved."
  },
  {
   "property": "C68",
   "status": "partial",
   "theorems": [
    "C68_kinds_partial",
    "C68_shared_refuted"
   ],
   "note": "Refuted for a byte b and the class [b-(b+1)]; proved for two bytes and for two classes."
  },
  {
   "property": "C69",
   "status": "partial",
   "theorems": [
    "C69_text_partial",
    "C69_literal_refuted"
   ],
   "note": "Proved for expressions of classes that compute accepts; refuted for literals."
  },
  {
   "property": "C70",
   "status": "proved",
   "theorems": [
    "C70_unambiguous",
    "C70_value",
    "C70_accepts",
    "C70_rejects"
   ],
   "note": ""
  },
  {
   "property": "C71",
   "status": "partial",
   "theorems": [
    "C71_panics_refuted",
    "C71_total_partial"
   ],
   "note": "Refuted: load unwraps the tokenizer's result, so a text with a character outside of the notation panics. Proved: exactly those texts panic."
  },
  {
   "property": "C72",
   "status": "partial",
   "theorems": [
    "C72_rules_partial",
    "C72_roots_refuted",
    "C72_names_refuted",
    "C72_empty_refuted",
    "C72_stringify_refuted"
   ],
   "note": "Proved for rules, with names that are distinct identifiers and at least one rule. Refuted: roots are replaced by the first left-hand side; the name gN printed for an unnamed symbol can be another symbol's name; a grammar without rules does not load; the output of stringify_to_bnf makes load panic."
  },
  {
   "property": "C73",
   "status": "partial",
   "theorems": [
    "C73_tokens",
    "C73_parse_error",
    "C73_tokenize_error",
    "C73_no_result_partial",
    "C73_line_zero_refuted"
   ],
   "note": "Errors of incomplete files have line 0 and column 0, which is not one-indexed (refuted); the other positions are exact."
  },
  {
   "property": "C74",
   "status": "partial",
   "theorems": [
    "C74_accepts",
    "C74_one_file",
    "C74_one_parse_partial",
    "C74_same_value",
    "C74_lexer_refuted"
   ],
   "note": "The value of a file with a lexer block in first position, or with two lexer blocks, is a panic (C74_lexer_refuted); all else is proved."
  },
  {
   "property": "C75",
   "status": "partial",
   "theorems": [
    "C75_other_texts",
    "C75_total_partial",
    "C75_lexer_refuted",
    "C75_panics_refuted"
   ],
   "note": "Never panics for files with one lexer block after a statement, strings without U+D7FF and U+10FFFF, and expressions that can be loaded; texts that are no files are rejected. Refuted otherwise: C75_lexer_refuted for every such file, C75_panics_refuted for concrete ones."
  },
  {
   "property": "C76",
   "status": "partial",
   "theorems": [
    "C76_faults",
    "C76_loads",
    "C76_line_refuted"
   ],
   "note": "The reason is that of the first fault (proved, both directions); the line is refuted: it is the number of a token."
  },
  {
   "property": "C77",
   "status": "partial",
   "theorems": [
    "C77_language_partial",
    "C77_names_refuted"
   ],
   "note": "For files whose names are not those the loader gives to strings (__lex0, ...); refuted for the others by C77_names_refuted. rx, the parser of regular expressions, is a parameter."
  },
  {
   "property": "C78",
   "status": "partial",
   "theorems": [
    "C78_lexemes_partial",
    "C78_set_partial",
    "C78_lexemes_refuted"
   ],
   "note": "Refuted for files with names like __lex0, where such a name shares its symbol with a string (C78_lexemes_refuted); proved without such names, and which symbols are lexemes is proved for all loadable files (C78_set_partial)."
  },
  {
   "property": "C79",
   "status": "partial",
   "theorems": [
    "C79_origins_partial",
    "C79_many_refuted"
   ],
   "note": "Refuted for files of 2^32 rules (PropsAdvMany.v): origins are stored in 32 bits, so that no rule has the number 2^32. Proved for fewer than 2^32 - 2 rules."
  },
  {
   "property": "C80",
   "status": "proved",
   "theorems": [
    "C80_names",
    "C80_domain"
   ],
   "note": "For all loadable files, whatever their names."
  },
  {
   "property": "C81",
   "status": "partial",
   "theorems": [
    "C81_uncomputed_refuted",
    "C81_get_partial",
    "C81_next_refuted"
   ],
   "note": "Refuted before compute (C81_uncomputed_refuted) and since a written character also stands for the next one (C81_next_refuted); C81_get_partial states exactly what is listed."
  },
  {
   "property": "C82",
   "status": "proved",
   "theorems": [
    "C82_name_map",
    "C82_inverse"
   ],
   "note": "Symbols are given by their number from 0."
  },
  {
   "property": "C83",
   "status": "partial",
   "theorems": [
    "C83_source",
    "C83_mapping",
    "C83_reads_valid_partial",
    "C83_mapping_valid",
    "C83_names_refuted"
   ],
   "note": "Proved: round trips; a source that is read has a valid next symbol. Refuted: sources with a wrong number of names are accepted (C83_names_refuted). The JSON text itself is written and parsed by miniserde, which is not modelled."
  },
  {
   "property": "C84",
   "status": "partial",
   "theorems": [
    "C84_roundtrip",
    "C84_total_partial",
    "C84_zero_refuted"
   ],
   "note": "Proved: round trip; short input is an error, other input is a symbol or four zero bytes. Refuted: four zero bytes panic."
  },
  {
   "property": "C85",
   "status": "partial",
   "theorems": [
    "C85_table_partial",
    "C85_kept_partial",
    "C85_table_refuted"
   ],
   "note": "The function written for the table follows it (C85_table_partial), but its result is dropped, so no rule gets it: C85_table_refuted gives a sequence whose rules have wrong positions, C85_kept_partial says what they have for every sequence."
  },
  {
   "property": "C86",
   "status": "partial",
   "theorems": [
    "C86_same_rule_partial",
    "C86_next_rule_partial",
    "C86_prediction_refuted",
    "C86_longer_refuted",
    "C86_early_refuted"
   ],
   "note": "False in general (C86_prediction_refuted, C86_longer_refuted, C86_early_refuted: distances do not pass through predictions, and the loop stops early). Proved minimal inside the rule of a target and in the rules of the symbols next to it. That reported distances are realized by strings is C46."
  },
  {
   "property": "C87",
   "status": "partial",
   "theorems": [
    "C87_rules",
    "C87_distances_partial",
    "C87_end_refuted"
   ],
   "note": "Rules and kinds, and the start distance, proved. C87_end_refuted: the end distance can be too long (4 instead of 3). C87_distances_partial: it is always realized and at most what the rule derives."
  },
  {
   "property": "C88",
   "status": "proved",
   "theorems": [
    "C88_trees_are_parses",
    "C88_limit_rhs_len",
    "C88_add_rule"
   ],
   "note": "One-to-one and onto on parse trees, hence ambiguity is kept both ways."
  },
  {
   "property": "C89",
   "status": "proved",
   "theorems": [
    "C89_reverse",
    "C89_sort",
    "C89_dedup",
    "C89_reorder",
    "C89_remove_unused",
    "C89_remove_useless",
    "C89_make_proper"
   ],
   "note": "Useless rules: trees of a root over the terminals of the original grammar, because a symbol all of whose rules were removed looks like a terminal afterwards. make_proper keeps ambiguity of productive roots. Dedup: no parse is added (that no string is lost is C21)."
  },
  {
   "property": "C90",
   "status": "partial",
   "theorems": [
    "C90_one_parse_partial",
    "C90_optional_separator_refuted"
   ],
   "note": "One tree for every sequence, and no other trees, for the rules of any one sequence under no limit or a limit of at least three. Refuted for an optional last separator with zero elements allowed: two parses of the empty sequence."
  },
  {
   "property": "C91",
   "status": "partial",
   "theorems": [
    "C91_text",
    "C91_readable_partial",
    "C91_names_refuted"
   ],
   "note": "The text is specified by an inductive relation beside the model's functions. Rules and names can be read off if no name contains an opening parenthesis; refuted otherwise."
  },
  {
   "property": "C92",
   "status": "proved",
   "theorems": [
    "C92_embeds",
    "C92_no_new_ambiguity",
    "C92_same_ambiguity"
   ],
   "note": "The map to trees of the grammar with split rules (whose trees are those of the original, C88) puts one chosen tree of the empty string where a symbol was left out."
  },
  {
   "property": "C93",
   "status": "partial",
   "theorems": [
    "C93_one_parse_partial",
    "C93_tightest_refuted"
   ],
   "note": "C93_one_parse_partial proves it for mixfix tables of any size in which no level has operands of this very level both at a left end and at a right end (SpecOps.operator_table). This excludes infix operators on the tightest level, where both operands are of that level: C93_tightest_refuted shows that E - E on the tightest level leaves n - n - n ambiguous (the same cause as C26_tightest_refuted). C93_mixed_example shows that mixing associativities on a level is ambiguous as well."
  },
  {
   "property": "C94",
   "status": "partial",
   "theorems": [
    "C94_stored_whole_partial",
    "C94_no_limit_partial",
    "C94_lengths_partial",
    "C94_range_refuted"
   ],
   "note": "Refuted for the end of the range: rules exactly as long as the limit are stored (C94_range_refuted); lengths in the range are stored whole, all stored lengths are in the range or equal to its end, and without a limit all lengths are in it."
  },
  {
   "property": "C95",
   "status": "partial",
   "theorems": [
    "C95_in_order_partial",
    "C95_range_partial",
    "C95_range_refuted",
    "C95_attempt",
    "C95_attempts_differ_partial",
    "C95_attempts_refuted"
   ],
   "note": "Refuted for different attempts: the mixture is two to one on bytes, so attempts 0 and 78 on a first byte of 0 are the same from then on; at most two of the first 256 attempts start alike. Refuted for the range: for the byte 255 the value may be above the limit, e.g. for the limit 1.5 + 2^-45 (C95_range_refuted). Proved: in order, with a relative error of at most 2^-51."
  },
  {
   "property": "C96",
   "status": "partial",
   "theorems": [
    "C96_past_end_partial",
    "C96_split_partial",
    "C96_kept_partial",
    "C96_origin_partial",
    "C96_new_refuted"
   ],
   "note": "Refuted for new histories: Default gives position 0 of rule 0 at distance 0 for each of the three positions (C96_new_refuted), also after all symbols of a rule were removed. Proved for positions after the third, parts of split rules, all other processing steps, and the original rule."
  },
  {
   "property": "C97",
   "status": "partial",
   "theorems": [
    "C97_parse_error",
    "C97_unfinished",
    "C97_rule_error",
    "C97_fault",
    "C97_foreign",
    "C97_lone_colon",
    "C97_parser_partial",
    "C97_panic_refuted",
    "C97_same_parser_refuted",
    "C97_two_lines_refuted",
    "C97_raw_refuted",
    "C97_path_refuted"
   ],
   "note": "Where errors are reported is proved for all streams of words (each token on one line): C97_parse_error (exact), C97_unfinished, C97_foreign, C97_rule_error, C97_fault. Refuted: a grammar without lexer rules and strings panics, since the assertion on is_empty is inverted (C97_panic_refuted, for all such grammars); the parser is always that of {} (C97_same_parser_refuted); a literal on two lines moves the places of later errors or panics, and a raw literal that ends in a backslash panics. C97_parser_partial: there is a parser otherwise."
  },
  {
   "property": "C98",
   "status": "partial",
   "theorems": [
    "C98_written",
    "C98_compare",
    "C98_empty_partial",
    "C98_empty_refuted"
   ],
   "note": "C98_written and C98_compare are exact. Missing: the documented panic for the empty list is one only in debug builds; in release builds the length wraps around and the memory is used up (C98_empty_refuted)."
  },
  {
   "property": "C99",
   "status": "partial",
   "theorems": [
    "C99_json",
    "C99_json_valid",
    "C99_binary",
    "C99_binary_total",
    "C99_set",
    "C99_set_tree",
    "C99_set_valid_partial",
    "C99_set_valid_refuted"
   ],
   "note": "Round trips and validity are proved for all values and texts. Refuted: a set is read although it has fewer blocks than bits, and asking for a symbol of it panics (C99_set_valid_refuted); C99_set_valid_partial holds for texts with enough blocks."
  },
  {
   "property": "C100",
   "status": "proved",
   "theorems": [
    "C100_prepared"
   ],
   "note": "Strings are made of original terminals and markers; a nonterminal deriving only the empty string becomes a terminal of the result (C15)."
  },
  {
   "property": "C101",
   "status": "partial",
   "theorems": [
    "C101_renumbered_partial",
    "C101_sentences_partial",
    "C101_lost_root_refuted",
    "C101_no_rules_refuted",
    "C101_roots_partial"
   ],
   "note": "False in general (two refutations); proved when the wrapped roots still occur in rules and a rule is left (C101_renumbered_partial), for which it is enough that there are roots, each with a string and in a rule of the prepared grammar (C101_sentences_partial). From the original grammar alone it is enough that there are roots, each with a string and none deriving itself in one or more steps (C101_roots_partial)."
  },
  {
   "property": "C102",
   "status": "partial",
   "theorems": [
    "C102_unambiguous_partial",
    "C102_wrapped_partial",
    "C102_end_refuted",
    "C102_wrapped_refuted"
   ],
   "note": "Proved for grammars with productive symbols where no rule starts with a symbol that derives the empty string among others: directly (no two vanishing rules) and for wrapped roots. Refuted in general: the table has no column for the end of input, and FIRST sets of nullable symbols are incomplete."
  },
  {
   "property": "C103",
   "status": "partial",
   "theorems": [
    "C103_finite_partial",
    "C103_infinite",
    "C103_exact",
    "C103_prepared_partial",
    "C103_prepared_refuted"
   ],
   "note": "C103_exact: without empty rules and with productive symbols, finiteness is exactly cycle_free and no rule A ::= A; C103_infinite for each reported rule. Refuted for rules A ::= A, which are not cycles for the analysis and which nulling elimination can create (C103_prepared_refuted)."
  },
  {
   "property": "C104",
   "status": "proved",
   "theorems": [
    "C104_wrap_input"
   ],
   "note": "full: trees of a root and of its wrapper are in bijection, other symbols keep their trees; ambiguity is kept"
  },
  {
   "property": "C105",
   "status": "partial",
   "theorems": [
    "C105_chained_partial",
    "C105_unfinished",
    "C105_dropped_refuted"
   ],
   "note": "proved for chains that end in a closed part; refuted for a chain that ends in operators without finalize: group alternatives and the rule of the symbol are lost (then the symbol never gets a new alternative)"
  },
  {
   "property": "C106",
   "status": "partial",
   "theorems": [
    "C106_limit",
    "C106_nulling",
    "C106_cycles",
    "C106_rewrite",
    "C106_proper_refuted",
    "C106_proper_partial",
    "C106_sort",
    "C106_dedup",
    "C106_reverse",
    "C106_unused_partial",
    "C106_unused_refuted"
   ],
   "note": "proved for all steps except make_proper (refuted in general, proved if all symbols reached from roots are productive) and remove_unused_symbols (refuted for roots without rules, proved if roots are used)"
  },
  {
   "property": "C107",
   "status": "partial",
   "theorems": [
    "C107_sets",
    "C107_closures",
    "C107_matrices",
    "C107_usefulness",
    "C107_cycle_free",
    "C107_recursion",
    "C107_predict",
    "C107_ll1",
    "C107_ll1_repeated_refuted",
    "C107_lengths_partial",
    "C107_lengths_refuted",
    "C107_distances_refuted"
   ],
   "note": "Proved for symbol sets, closures, matrices, usefulness, cycle freedom, recursion kinds, FIRST, LAST and FOLLOW. LL(1) classes: proved for reordered rules; refuted for a rule that is stated twice. Minimal sentence lengths: equal when both computations finish; refuted that both finish or panic together (sums that overflow u32 on the way). Minimal distances: refuted, reversing three rules changes a distance from 1 to 2."
  },
  {
   "property": "C108",
   "status": "proved",
   "theorems": [
    "C108_sets",
    "C108_matrices",
    "C108_cycle_free",
    "C108_usefulness",
    "C108_predict",
    "C108_lengths",
    "C108_overflow_depends",
    "C108_ll1"
   ],
   "note": "All analyses agree along the mapping. Minimal lengths are equal whenever both calculations return; C108_overflow_depends gives a grammar where the calculation panics on overflow before renumbering and returns after it. Usefulness needs the roots to occur in rules, because RemoveUnused drops the others."
  },
  {
   "property": "C109",
   "status": "proved",
   "theorems": [
    "C109_sets",
    "C109_closures",
    "C109_matrices",
    "C109_usefulness",
    "C109_cycle_free",
    "C109_recursion",
    "C109_first_last",
    "C109_lengths",
    "C109_overflow_depends"
   ],
   "note": "All parts are equalities of results; lengths for calculations that both return, C109_overflow_depends shows that one of them can panic alone."
  },
  {
   "property": "C110",
   "status": "proved",
   "theorems": [
    "C110_sets",
    "C110_matrices",
    "C110_cycle_free",
    "C110_usefulness",
    "C110_predict",
    "C110_lengths",
    "C110_ll1_changes"
   ],
   "note": "LL(1) classes are not claimed: C110_ll1_changes gives a grammar whose class changes when its rules are split, because FIRST of a string stops at a nullable symbol (C43)."
  },
  {
   "property": "C111",
   "status": "proved",
   "theorems": [
    "C111_vanishing",
    "C111_productive",
    "C111_useless",
    "C111_reachability",
    "C111_reached",
    "C111_cycles"
   ],
   "note": "Relations between the results of the analyses themselves; where minimal lengths take part, for the debug build when their calculation returns."
  },
  {
   "property": "C112",
   "status": "proved",
   "theorems": [
    "C112_sets",
    "C112_matrices",
    "C112_cycles",
    "C112_usefulness",
    "C112_predict",
    "C112_lengths",
    "C112_wrap",
    "C112_wrap_follow"
   ],
   "note": "Where minimal lengths take part, for the debug build when both calculations return."
  },
  {
   "property": "C113",
   "status": "proved",
   "theorems": [
    "C113_forms",
    "C113_nothing_new",
    "C113_nothing_lost",
    "C113_reachability"
   ],
   "note": "C113_forms strengthens C13 from terminal strings to sentential forms; C113_nothing_new and C113_nothing_lost are the two inclusions for FIRST, LAST and FOLLOW; C113_reachability is the matrix."
  },
  {
   "property": "C114",
   "status": "proved",
   "theorems": [
    "C114_exact",
    "C114_infinite"
   ],
   "note": "Extends C103, which is about grammars without empty rules. Parse trees are those of the rules as given (SpecTree)."
  },
  {
   "property": "C115",
   "status": "proved",
   "theorems": [
    "C115_math_language",
    "C115_math_trees",
    "C115_math_ambiguity",
    "C115_c_useful",
    "C115_c_finite",
    "C115_c_ambiguous"
   ],
   "note": "ambiguous_math.rs is not declared as a module in lib.rs, so it is not compiled; the theorem is about its text. The C grammar is the fixed text of c.rs."
  },
  {
   "property": "C116",
   "status": "proved",
   "theorems": [
    "C116_names",
    "C116_bytes",
    "C116_distinct"
   ],
   "note": "The class of a byte b below 255 is the pair of characters b, b + 1 (see C50 for why this is not what one expects)."
  },
  {
   "property": "C117",
   "status": "proved",
   "theorems": [
    "C117_accepted",
    "C117_refused",
    "C117_supported"
   ],
   "note": "PropsRegexRefuse.v (C117_accepted, C117_refused, C117_supported, C117_example). Release builds: only refusals are stated."
  },
  {
   "property": "C118",
   "status": "partial",
   "theorems": [
    "C118_declared_partial",
    "C118_split_partial",
    "C118_used_partial",
    "C118_three_decimals_refuted"
   ],
   "note": "PropsWeight.v. Refuted for three decimals: the floating-point number next to 1.001 is kept as 1000 thousandths, because the product is truncated. Proved: less than a thousandth away, and exact if the floating-point number itself is a whole number of thousandths."
  },
  {
   "property": "C119",
   "status": "proved",
   "theorems": [
    "C119_logarithmic"
   ],
   "note": "PropsSize.v."
  },
  {
   "property": "C120",
   "status": "proved",
   "theorems": [
    "C120_linear"
   ],
   "note": "PropsElimSize.v."
  },
  {
   "property": "C121",
   "status": "proved",
   "theorems": [
    "C121_share",
    "C121_order"
   ],
   "note": "PropsFair.v."
  },
  {
   "property": "C122",
   "status": "proved",
   "theorems": [
    "C122_sentences",
    "C122_prepared"
   ],
   "note": "PropsProper.v."
  },
  {
   "property": "C123",
   "status": "proved",
   "theorems": [
    "C123_size"
   ],
   "note": "PropsRegexSize.v."
  },
  {
   "property": "C124",
   "status": "proved",
   "theorems": [
    "C124_linear"
   ],
   "note": "PropsPipeSize.v."
  },
  {
   "property": "C125",
   "status": "proved",
   "theorems": [
    "C125_size",
    "C125_limited"
   ],
   "note": "PropsPrecSize.v; that the calls succeed is C24."
  },
  {
   "property": "C126",
   "status": "proved",
   "theorems": [
    "C126_parser",
    "C126_generated"
   ],
   "note": "PropsFile.v, SpecText.v."
  },
  {
   "property": "C127",
   "status": "proved",
   "theorems": [
    "C127_parser",
    "C127_generated"
   ],
   "note": "PropsRegexPipe.v, PropsGenChars.v."
  },
  {
   "property": "C128",
   "status": "proved",
   "theorems": [
    "C128_parser",
    "C128_generated"
   ],
   "note": "PropsAdvPipe.v."
  },
  {
   "property": "C129",
   "status": "partial",
   "theorems": [
    "C129_deterministic_partial",
    "C129_parser_partial",
    "C129_refuted"
   ],
   "note": "PropsTopDown.v. As for C44 and C102, rules that start with symbols that derive the empty string among others are excluded (C129_refuted). C129_expressions: a grammar of expressions meets the conditions."
  },
  {
   "property": "C130",
   "status": "proved",
   "theorems": [
    "C130_retry",
    "C130_exceeded"
   ],
   "note": "C130_retry, C130_exceeded. Attempts are those that return a text; one negative rule. Several negative symbols are C49 and C66 (refuted there)."
  },
  {
   "property": "C131",
   "status": "proved",
   "theorems": [
    "C131_agree",
    "C131_no_effect",
    "C131_last",
    "C131_order"
   ],
   "note": "C131_agree is the general form; C131_no_effect, C131_last and C131_order are its uses. The results agree for every number of iterations the model allows, so also when the loop does not end."
  },
  {
   "property": "C132",
   "status": "proved",
   "theorems": [
    "C132_local",
    "C132_retain",
    "C132_extend"
   ],
   "note": "C132_local is the general form; C132_retain and C132_extend are its uses for retain and extend. The example shows that the order of the rules of one symbol does matter."
  },
  {
   "property": "C133",
   "status": "proved",
   "theorems": [
    "C133_smaller",
    "C133_larger",
    "C133_exact"
   ],
   "note": "C133_smaller, C133_larger, C133_exact. C133_negative_example shows that with negative rules an attempt that would be given up can exceed the limit, so the last claim is for calls without them."
  }
 ]
}