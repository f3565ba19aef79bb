{
 "claims": [
  {
   "property": "C01",
   "status": "proved",
   "theorems": [
    "C01_longest_match"
   ],
   "note": ""
  },
  {
   "property": "C02",
   "status": "proved",
   "theorems": [
    "C02_earlier_pattern_wins"
   ],
   "note": "for hash tables that do not confuse keys, as the property says"
  },
  {
   "property": "C03",
   "status": "proved",
   "theorems": [
    "C03_no_input_lost"
   ],
   "note": ""
  },
  {
   "property": "C04",
   "status": "proved",
   "theorems": [
    "C04_none_iff_nothing_matches"
   ],
   "note": ""
  },
  {
   "property": "C05",
   "status": "partial",
   "theorems": [
    "C05_terminates_partial",
    "C05_nullable_diverges",
    "C05_terminates_refuted"
   ],
   "note": "The full claim is false: a tokenizer that accepts the empty string never stops. Proved exactly for the others."
  },
  {
   "property": "C06",
   "status": "partial",
   "theorems": [
    "C06_exact_partial",
    "C06_exact_refuted"
   ],
   "note": "The full claim is false, e.g. (ab*)? accepts b. Proved for a decidable class of expressions; C56 gives the exact language for all the others."
  },
  {
   "property": "C07",
   "status": "proved",
   "theorems": [
    "C07_never_misses"
   ],
   "note": "for hash tables that do not confuse keys, as the property says"
  },
  {
   "property": "C08",
   "status": "proved",
   "theorems": [
    "C08_rejects_exactly"
   ],
   "note": ""
  },
  {
   "property": "C09",
   "status": "proved",
   "theorems": [
    "C09_determinisation"
   ],
   "note": ""
  },
  {
   "property": "C10",
   "status": "proved",
   "theorems": [
    "C10_range_tables_sound"
   ],
   "note": ""
  },
  {
   "property": "C100",
   "status": "proved",
   "theorems": [
    "C100_reading",
    "C100_exact",
    "C100_group",
    "C100_flat_needed"
   ],
   "note": "C100_exact and C100_group for reducers that succeed on arguments of the right kinds (total_on); the boundary (brackets inside a wrong content) is C100_flat_needed"
  },
  {
   "property": "C101",
   "status": "proved",
   "theorems": [
    "C101_items",
    "C101_exact",
    "C101_made",
    "C101_last_item_refuted",
    "C101_empty_rules_refuted"
   ],
   "note": "C101_exact for reducers that succeed on arguments of the right kinds (total_on); the last two show that the last item and empty right-hand sides are rightly excluded"
  },
  {
   "property": "C102",
   "status": "proved",
   "theorems": [
    "C102_items",
    "C102_exact",
    "C102_empty",
    "C102_made",
    "C102_empty_rules_refuted"
   ],
   "note": "C102_exact for reducers that succeed on arguments of the right kinds (total_on); C102_empty_rules_refuted shows that empty right-hand sides are rightly excluded"
  },
  {
   "property": "C103",
   "status": "proved",
   "theorems": [
    "C103_results",
    "C103_agree",
    "C103_end_refuted"
   ],
   "note": "C103_agree for reducers that succeed on arguments of the right kinds (total_on); C103_end_refuted shows that the last piece must be an item"
  },
  {
   "property": "C104",
   "status": "proved",
   "theorems": [
    "C104_statements",
    "C104_right",
    "C104_left",
    "C104_count",
    "C104_trailing_refuted"
   ],
   "note": "C104_trailing_refuted shows why C104_left needs a last piece that is not empty; the second halves are for reducers that succeed on arguments of the right kinds (total_on)"
  },
  {
   "property": "C105",
   "status": "proved",
   "theorems": [
    "C105_any",
    "C105_statements",
    "C105_right",
    "C105_left"
   ],
   "note": "C105_left for texts with at least one token (C102_empty: parse panics on none)"
  },
  {
   "property": "C106",
   "status": "proved",
   "theorems": [
    "C106_steady",
    "C106_statements",
    "C106_lists",
    "C106_left_lists"
   ],
   "note": ""
  },
  {
   "property": "C107",
   "status": "proved",
   "theorems": [
    "C107_tokens",
    "C107_linear"
   ],
   "note": ""
  },
  {
   "property": "C11",
   "status": "partial",
   "theorems": [
    "C11_minify_preserves_partial",
    "C11_minify_preserves_refuted",
    "C11_safe_tables_any_seed"
   ],
   "note": "The full claim is false for unlucky hash seeds: CharRange compares only starts. Proved when different keys are not confused, and for every seed when the table passes a decidable test (safe_nodes)."
  },
  {
   "property": "C12",
   "status": "proved",
   "theorems": [
    "C12_minimal"
   ],
   "note": "for hash tables that do not confuse keys, as the property says"
  },
  {
   "property": "C13",
   "status": "proved",
   "theorems": [
    "C13_warnings_exact",
    "C13_no_warning_no_overlap",
    "C49_warnings"
   ],
   "note": "C49_warnings: exact for all patterns in terms of the one-pattern tokenizers. C13_warnings_exact: in terms of the regular languages for the class of C06."
  },
  {
   "property": "C14",
   "status": "proved",
   "theorems": [
    "C14_build_terminates",
    "C14_minify_total"
   ],
   "note": ""
  },
  {
   "property": "C15",
   "status": "proved",
   "theorems": [
    "C15_maximal_munch",
    "C15_munch_deterministic"
   ],
   "note": "for the class of C06, as the property says"
  },
  {
   "property": "C16",
   "status": "proved",
   "theorems": [
    "C16_macro_agrees",
    "C16_macro_fails_with_build"
   ],
   "note": "for hash tables that do not confuse keys, as the property says"
  },
  {
   "property": "C17",
   "status": "proved",
   "theorems": [
    "C17_makers_get_the_matched_text",
    "C17_tokenize_is_identity"
   ],
   "note": ""
  },
  {
   "property": "C18",
   "status": "partial",
   "theorems": [
    "C18_seed_independent_partial",
    "C18_seed_independent_refuted",
    "C18_safe_patterns_any_seed",
    "C18_safe_patterns_honest"
   ],
   "note": "The full claim is false (same cause as C11). Proved for seeds that do not confuse keys, and for every seed when the patterns pass a decidable test (seed_safe), as the calculator's do."
  },
  {
   "property": "C19",
   "status": "proved",
   "theorems": [
    "C19_lazy",
    "C19_lookahead",
    "C19_lookahead_regex",
    "C19_lookahead_dead_refuted"
   ],
   "note": "lively (NfaLive.v): no empty class or empty alternation in a pattern; C19_lookahead_dead_refuted: needed"
  },
  {
   "property": "C20",
   "status": "proved",
   "theorems": [
    "C20_null_first_exact"
   ],
   "note": ""
  },
  {
   "property": "C21",
   "status": "proved",
   "theorems": [
    "C21_sound",
    "C21_sound_without_errors"
   ],
   "note": ""
  },
  {
   "property": "C22",
   "status": "proved",
   "theorems": [
    "C22_complete"
   ],
   "note": ""
  },
  {
   "property": "C23",
   "status": "partial",
   "theorems": [
    "C23_decides_partial",
    "C23_decides_loop_free_partial",
    "C23_decides_with_recovery_partial",
    "C23_decides_refuted"
   ],
   "note": "Proved when every symbol occurring in a right-hand side derives some token sequence, and when no symbol reachable from the start has a cycle or hidden left recursion; without either the full claim is false (g_unprod hangs). With error rules: the run detects a syntax error exactly on the inputs that are not derivable."
  },
  {
   "property": "C24",
   "status": "partial",
   "theorems": [
    "C24_unambiguous_partial",
    "C24_unambiguous_refuted"
   ],
   "note": "The full claim is false: S ::= S | a gives no warning. Proved when the start symbol does not derive itself."
  },
  {
   "property": "C25",
   "status": "proved",
   "theorems": [
    "C25_evaluation",
    "C25_calls_of_success",
    "C25_first_error_wins",
    "C25_value"
   ],
   "note": ""
  },
  {
   "property": "C26",
   "status": "proved",
   "theorems": [
    "C26_arguments",
    "C26_calls_are_all"
   ],
   "note": ""
  },
  {
   "property": "C27",
   "status": "proved",
   "theorems": [
    "C27_new_total",
    "C27_no_panic_when_defined"
   ],
   "note": ""
  },
  {
   "property": "C28",
   "status": "partial",
   "theorems": [
    "C28_no_panic_partial",
    "C28_no_panic_safe_reducers_partial",
    "C28_no_panic_refuted"
   ],
   "note": "The full claim is false: S ::= error panics on the empty input. Proved (as an equivalence: it panics iff a reducer call does) for non-empty inputs and for grammars without error rules."
  },
  {
   "property": "C29",
   "status": "partial",
   "theorems": [
    "C29_terminates_partial",
    "C29_terminates_refuted"
   ],
   "note": "The full claim is false in three ways (see the refutation). Proved for warning-free, productive grammars, with or without error rules, in which no two error symbols can be next to each other in a derived string (each of the three conditions is necessary), and for derivable inputs of all warning-free grammars."
  },
  {
   "property": "C30",
   "status": "proved",
   "theorems": [
    "C30_resolution",
    "C30_states"
   ],
   "note": ""
  },
  {
   "property": "C31",
   "status": "proved",
   "theorems": [
    "C31_warnings_exact"
   ],
   "note": ""
  },
  {
   "property": "C32",
   "status": "proved",
   "theorems": [
    "C32_order_independent",
    "C32_order_independent_effects"
   ],
   "note": ""
  },
  {
   "property": "C33",
   "status": "proved",
   "theorems": [
    "C33_no_error_on_sentences",
    "C33_first_impossible_token",
    "C33_unexpected_end",
    "C33_shifted_viable"
   ],
   "note": ""
  },
  {
   "property": "C34",
   "status": "partial",
   "theorems": [
    "C34_error_slice_partial",
    "C34_error_slice_refuted"
   ],
   "note": "The full claim is false for errors at the end of the input. Proved for errors at tokens."
  },
  {
   "property": "C35",
   "status": "partial",
   "theorems": [
    "C35_where_recovery_starts_partial",
    "C35_every_token_seen_partial",
    "C35_every_token_seen_refuted",
    "C35_blocks_refuted"
   ],
   "note": "Proved for every grammar in which a nonterminal that can be completed without a first token (empty, or of error symbols) does not come where an error symbol can come, unless nothing can come behind it; this covers possibly empty statement lists, left- or right-recursive. Special case: every rule has a token or a nonterminal. The full claim is false of the code: a nonterminal reduced from nothing is recorded as starting behind the lookahead and recovery then drops tokens (refuted with two witnesses, one of them blocks of statements)."
  },
  {
   "property": "C36",
   "status": "proved",
   "theorems": [
    "C36_unexpected_end"
   ],
   "note": ""
  },
  {
   "property": "C37",
   "status": "proved",
   "theorems": [
    "C37_sound_with_recovery"
   ],
   "note": ""
  },
  {
   "property": "C38",
   "status": "proved",
   "theorems": [
    "C38_macro_agrees",
    "C38_macro_builds"
   ],
   "note": "Results, remaining input, reducer calls and error slices agree for every input, for all hash orders on either side; distinct names for distinct variants is a hypothesis, alias_differs shows it is needed. C38_macro_builds: the macro expands exactly when the builder succeeds, for syntaxes whose start symbol has a rule."
  },
  {
   "property": "C39",
   "status": "proved",
   "theorems": [
    "C39_alternatives",
    "C39_panics"
   ],
   "note": "The rules of the generated parser are the ones written; panics exactly on bad names, a leading |, or (from the table construction) a symbol without rules."
  },
  {
   "property": "C40",
   "status": "proved",
   "theorems": [
    "C40_added_rules_do_not_disturb"
   ],
   "note": "for start symbols that do not derive themselves, as the property says"
  },
  {
   "property": "C41",
   "status": "proved",
   "theorems": [
    "C41_start_rule"
   ],
   "note": ""
  },
  {
   "property": "C42",
   "status": "proved",
   "theorems": [
    "C42_greediness_irrelevant"
   ],
   "note": ""
  },
  {
   "property": "C43",
   "status": "proved",
   "theorems": [
    "C43_reference_semantics",
    "C43_deterministic"
   ],
   "note": "For every grammar, conflicting or not, all reducers and all inputs: results, remaining input, panics and divergence agree with the abstract parser of MachSpec.v."
  },
  {
   "property": "C44",
   "status": "proved",
   "theorems": [
    "C44_lazy",
    "C44_rest"
   ],
   "note": ""
  },
  {
   "property": "C45",
   "status": "proved",
   "theorems": [
    "C45_value_origin",
    "C45_typed"
   ],
   "note": ""
  },
  {
   "property": "C46",
   "status": "proved",
   "theorems": [
    "C46_made",
    "C46_evaluates",
    "C46_one_value"
   ],
   "note": ""
  },
  {
   "property": "C47",
   "status": "proved",
   "theorems": [
    "C47_made",
    "C47_tokens",
    "C47_nothing_lost"
   ],
   "note": "Assumes that regex_syntax parses the nine patterns to calc_hirs (ExSpec.v) and that f64::from_str accepts number texts."
  },
  {
   "property": "C48",
   "status": "proved",
   "theorems": [
    "C48_line",
    "C48_loop",
    "C48_line_lazy",
    "C48_loop_lazy",
    "C48_flatten_panics"
   ],
   "note": "Same assumptions as C47. The _lazy theorems are about the model in which the parser pulls the tokens one by one; C48_flatten_panics: a panicking maker."
  },
  {
   "property": "C49",
   "status": "proved",
   "theorems": [
    "C49_accepts",
    "C49_warnings",
    "C49_tokens"
   ],
   "note": "C49_accepts and C49_tokens need seeds that do not confuse keys (see C11); C49_warnings does not."
  },
  {
   "property": "C50",
   "status": "proved",
   "theorems": [
    "C50_linear_time"
   ],
   "note": "Inputs with syntax errors under error rules are excluded in the statement: recovery puts tokens back."
  },
  {
   "property": "C51",
   "status": "proved",
   "theorems": [
    "C51_ambiguous_exactly"
   ],
   "note": ""
  },
  {
   "property": "C52",
   "status": "proved",
   "theorems": [
    "C52_rule_traits",
    "C52_item_traits",
    "C52_syntax_eq"
   ],
   "note": ""
  },
  {
   "property": "C53",
   "status": "partial",
   "theorems": [
    "C53_range_traits_partial",
    "C53_range_traits_refuted"
   ],
   "note": "The full claim is false: ranges with equal starts and different ends are equal but hash differently (the cause of C11 and C18). Proved: everything except the contract of Hash."
  },
  {
   "property": "C54",
   "status": "proved",
   "theorems": [
    "C54_parser_notation",
    "C54_tokenizer_notation",
    "C54_one_meaning"
   ],
   "note": "syn's own parsers for Rust syntax are parameters with the assumption reads; the primitives of syn are modelled from its documentation."
  },
  {
   "property": "C55",
   "status": "proved",
   "theorems": [
    "C55_reading"
   ],
   "note": "Same assumptions as C54."
  },
  {
   "property": "C56",
   "status": "proved",
   "theorems": [
    "C56_accepts",
    "C56_warnings",
    "C56_tokens",
    "C56_compared"
   ],
   "note": ""
  },
  {
   "property": "C57",
   "status": "proved",
   "theorems": [
    "C57_any_iterator",
    "C57_finite"
   ],
   "note": ""
  },
  {
   "property": "C58",
   "status": "proved",
   "theorems": [
    "C58_any_iterator",
    "C58_panic",
    "C58_returns",
    "C58_list",
    "C58_called_once_refuted"
   ],
   "note": "C58_called_once_refuted shows the last sentence."
  },
  {
   "property": "C59",
   "status": "proved",
   "theorems": [
    "C59_pipeline",
    "C59_text_to_value"
   ],
   "note": "The tokenizer may ask its iterator again after the end, so the iterator has to stay at its end."
  },
  {
   "property": "C60",
   "status": "proved",
   "theorems": [
    "C60_effects",
    "C60_effects_of_success",
    "C60_terminates",
    "C60_pure"
   ],
   "note": "C60_pure: the model of C21-C45 is the special case without effects"
  },
  {
   "property": "C61",
   "status": "proved",
   "theorems": [
    "C61_reducers_do_not_steer"
   ],
   "note": ""
  },
  {
   "property": "C62",
   "status": "proved",
   "theorems": [
    "C62_lookahead_timing",
    "C62_timing_of_success",
    "C62_terminates",
    "C62_generalises"
   ],
   "note": "C62_generalises: the models of C57 and C60 are special cases"
  },
  {
   "property": "C63",
   "status": "proved",
   "theorems": [
    "C63_conflicts_terminate",
    "C63_conflicts_linear",
    "C63_certificate",
    "C63_both_needed"
   ],
   "note": "loop_free (LoopSpec.v) is stated with rewriting of strings only; C63_both_needed: each of the two defects alone lets parse hang"
  },
  {
   "property": "C64",
   "status": "proved",
   "theorems": [
    "C64_ways_agree"
   ],
   "note": ""
  },
  {
   "property": "C65",
   "status": "proved",
   "theorems": [
    "C65_rule_order",
    "C65_useless_rules",
    "C65_builds",
    "C65_warnings_order_matters"
   ],
   "note": "rule numbers do not show: simulation between the reference parsers of the two grammars (RuleMap.v), through C43"
  },
  {
   "property": "C66",
   "status": "proved",
   "theorems": [
    "C66_pattern_order",
    "C66_same_cuts",
    "C66_overlap_shows"
   ],
   "note": ""
  },
  {
   "property": "C67",
   "status": "proved",
   "theorems": [
    "C67_any_tokenizer",
    "C67_panics",
    "C67_returns",
    "C67_dfa_tokenizer",
    "C67_munch"
   ],
   "note": "methods of the tokenizer that depend on interior mutability are not covered"
  },
  {
   "property": "C68",
   "status": "proved",
   "theorems": [
    "C68_quadratic",
    "C68_linear",
    "C68_linear_refuted"
   ],
   "note": "the work is counted in calls of the closure; C68_linear_refuted: the quadratic bound is attained for every length"
  },
  {
   "property": "C69",
   "status": "proved",
   "theorems": [
    "C69_panics_exactly",
    "C69_no_panic_anchored"
   ],
   "note": "The exact version of C28, for every grammar and input."
  },
  {
   "property": "C70",
   "status": "proved",
   "theorems": [
    "C70_preferred_tree",
    "C70_usual_conflicts",
    "C70_conflicts_reject"
   ],
   "note": "For runs without syntax errors (in particular all successful runs of grammars without error rules)."
  },
  {
   "property": "C71",
   "status": "proved",
   "theorems": [
    "C71_cost_per_error",
    "C71_exponential"
   ],
   "note": "C71_exponential is the refutation of any polynomial bound on recovery; C71_cost_per_error is the bound that holds"
  },
  {
   "property": "C72",
   "status": "proved",
   "theorems": [
    "C72_resumes_at_first_possible_token",
    "C72_no_synchronising_token"
   ],
   "note": ""
  },
  {
   "property": "C73",
   "status": "proved",
   "theorems": [
    "C73_errors_linear",
    "C73_recovery_quadratic"
   ],
   "note": "C73_steady_needed shows that steadiness cannot be dropped"
  },
  {
   "property": "C74",
   "status": "proved",
   "theorems": [
    "C74_lr1",
    "C74_lr1_augmented",
    "C74_productive_needed"
   ],
   "note": "C74_productive_needed shows that the hypothesis of productivity cannot be dropped"
  },
  {
   "property": "C75",
   "status": "proved",
   "theorems": [
    "C75_numbering",
    "C75_builds",
    "C75_start_rule_needed"
   ],
   "note": "C75_start_rule_needed shows that the rule for the start symbol cannot be dropped from C75_builds"
  },
  {
   "property": "C76",
   "status": "proved",
   "theorems": [
    "C76_statements",
    "C76_exact",
    "C76_left_list_refuted",
    "C76_made",
    "C76_left_list_refuted",
    "C76_empty_rules_refuted",
    "C76_total_needed",
    "C76_made_cyclic_needed"
   ],
   "note": "the last four show that the list on the left, statement rules with empty right-hand sides, failing reducers and statements that rewrite to themselves do not have the property"
  },
  {
   "property": "C77",
   "status": "proved",
   "theorems": [
    "C77_made",
    "C77_value",
    "C77_unique",
    "C77_decides",
    "C77_every_sequence",
    "C77_tight_unary_needed",
    "C77_one_level_needed"
   ],
   "note": "the last two show that a unary operator looser than an infix one, and a token that is an infix operator on two levels, do not have the property"
  },
  {
   "property": "C78",
   "status": "proved",
   "theorems": [
    "C78_nested",
    "C78_language",
    "C78_decides",
    "C78_twice_needed",
    "C78_nonempty_needed",
    "C78_cyclic_needed",
    "C78_disjoint_needed"
   ],
   "note": "the last four show that each condition is needed"
  },
  {
   "property": "C79",
   "status": "proved",
   "theorems": [
    "C79_made",
    "C79_value",
    "C79_decides",
    "C79_cyclic_needed"
   ],
   "note": ""
  },
  {
   "property": "C80",
   "status": "proved",
   "theorems": [
    "C80_read_back",
    "C80_exactly",
    "C80_separators"
   ],
   "note": "patterns as they are accepted (C56)"
  },
  {
   "property": "C81",
   "status": "proved",
   "theorems": [
    "C81_inline",
    "C81_all",
    "C81_no_warnings_needed",
    "C81_total_needed"
   ],
   "note": "the last two show that the conditions are needed"
  },
  {
   "property": "C82",
   "status": "proved",
   "theorems": [
    "C82_layout",
    "C82_calculator",
    "C82_pure_needed"
   ],
   "note": "the last shows that the condition on the patterns is needed"
  },
  {
   "property": "C83",
   "status": "proved",
   "theorems": [
    "C83_memory",
    "C83_addresses"
   ],
   "note": "relative to MemModel.v, which writes out the drops; also freeing and locking errors are shown to be noticed by the model"
  },
  {
   "property": "C84",
   "status": "proved",
   "theorems": [
    "C84_addresses",
    "C84_same_answers",
    "C84_distinct_needed"
   ],
   "note": "the last shows that the addresses must be distinct"
  },
  {
   "property": "C85",
   "status": "proved",
   "theorems": [
    "C85_pointers",
    "C85_tokens",
    "C85_allocator_needed"
   ],
   "note": "the last shows that the allocator must not hand out an address in use"
  },
  {
   "property": "C86",
   "status": "proved",
   "theorems": [
    "C86_makes",
    "C86_collected",
    "C86_calls",
    "C86_equivalent",
    "C86_shadowed",
    "C86_alternatives",
    "C86_swapped",
    "C86_rewritten"
   ],
   "note": "what a pattern matches is the expression of C56"
  },
  {
   "property": "C87",
   "status": "proved",
   "theorems": [
    "C87_build",
    "C87_no_panic",
    "C87_ranges",
    "C87_needed"
   ],
   "note": "`u32` arithmetic; positions and counts of elements in memory (`usize`) stay unbounded"
  },
  {
   "property": "C88",
   "status": "proved",
   "theorems": [
    "C88_value",
    "C88_made"
   ],
   "note": "grammars without error rules; the outer reducers are given on tokens and item values"
  },
  {
   "property": "C89",
   "status": "proved",
   "theorems": [
    "C89_read_only",
    "C89_rest",
    "C89_edit",
    "C89_words",
    "C89_end_needed"
   ],
   "note": "the last shows that the end of the text must count as read"
  },
  {
   "property": "C90",
   "status": "proved",
   "theorems": [
    "C90_whole_text",
    "C90_rest_ignored",
    "C90_whole_judged",
    "C90_catch_all_needed"
   ],
   "note": "the last shows that 12+3@+ is accepted like 12+3 when no pattern matches @"
  },
  {
   "property": "C91",
   "status": "proved",
   "theorems": [
    "C91_grown",
    "C91_old_inputs",
    "C91_old_inputs_last",
    "C91_several",
    "C91_but",
    "C91_begin_needed",
    "C91_key_needed",
    "C91_reachable_needed",
    "C91_cyclic_needed",
    "C91_next_needed",
    "C91_closed_needed"
   ],
   "note": "the _needed theorems: dropping any one condition admits grammars with warnings"
  },
  {
   "property": "C92",
   "status": "proved",
   "theorems": [
    "C92_part",
    "C92_decides",
    "C92_reachable_needed"
   ],
   "note": ""
  },
  {
   "property": "C93",
   "status": "proved",
   "theorems": [
    "C93_nothing_lost",
    "C93_decides",
    "C93_value",
    "C93_certificate",
    "C93_some_needed",
    "C93_single_needed",
    "C93_next_needed",
    "C93_left_needed",
    "C93_operand_needed",
    "C93_operator_needed",
    "C93_optional_needed"
   ],
   "note": "the _needed theorems: without any one condition some grammar loses a text of its language (or, for single nonterminals, does not end)"
  },
  {
   "property": "C94",
   "status": "proved",
   "theorems": [
    "C94_parser",
    "C94_parser_outcomes",
    "C94_parser_builds",
    "C94_tokenizer"
   ],
   "note": "Rust expressions, types and patterns are read by syn: any reader that satisfies reads; what the expressions evaluate to is a parameter."
  },
  {
   "property": "C95",
   "status": "proved",
   "theorems": [
    "C95_bounded",
    "C95_grows",
    "C95_exactly",
    "C95_at_most_tokens",
    "C95_certificate",
    "C95_at_most_tokens_needed"
   ],
   "note": "Counts the entries of the stack; the vector of tokens taken, which parse keeps for error slices, is as long as the input taken."
  },
  {
   "property": "C96",
   "status": "proved",
   "theorems": [
    "C96_error_shown",
    "C96_no_error",
    "C96_nested",
    "C96_nested_syntax_error"
   ],
   "note": "std formatting is modelled as options and a sink; the derived Debug is not modelled."
  },
  {
   "property": "C97",
   "status": "proved",
   "theorems": [
    "C97_value",
    "C97_read",
    "C97_decides",
    "C97_one_reading",
    "C97_first_needed",
    "C97_operator_needed",
    "C97_further_needed"
   ],
   "note": "the reducers succeed on arguments of the right kinds (total_on), except in C97_read and C97_one_reading; the _needed theorems: without any one of the conditions some reading is not returned"
  },
  {
   "property": "C98",
   "status": "proved",
   "theorems": [
    "C98_arguments",
    "C98_result",
    "C98_left",
    "C98_right",
    "C98_vector",
    "C98_vector_argument"
   ],
   "note": ""
  },
  {
   "property": "C99",
   "status": "proved",
   "theorems": [
    "C99_blocks",
    "C99_exact",
    "C99_by_itself",
    "C99_nested_needed"
   ],
   "note": "C99_exact and C99_by_itself for reducers that succeed on arguments of the right kinds (total_on); C99_nested_needed: what happens to inputs whose blocks are not nested in this way"
  }
 ]
}