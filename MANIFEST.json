{"claims":[
{"property": "C01", "status": "proved", "theorems": ["C01_accepted_input_means_result", "C01_colliding_rows_refuted"], "note": "Holds when no row of the packed table overlaps another, no class lists a class and no token falls back to itself (usable); the macro checks none of these. Without it: C01_colliding_rows_refuted."},
{"property": "C02", "status": "proved", "theorems": ["C02_sentence_accepted"], "note": "Holds when no row of the packed table overlaps another, no class lists a class and no token falls back to itself (usable); the macro checks none of these."},
{"property": "C03", "status": "proved", "theorems": ["C03_one_tree", "C03_trees_cover", "C03_reading_unique"], "note": "Uniqueness of derivation trees over the declarations, and of values for arbitrary rule blocks."},
{"property": "C04", "status": "proved", "theorems": ["C04_consumed_is_prefix"], "note": "Holds when no row of the packed table overlaps another, no class lists a class and no token falls back to itself (usable); the macro checks none of these."},
{"property": "C05", "status": "proved", "theorems": ["C05_prefix_accepted"], "note": "Holds when no row of the packed table overlaps another, no class lists a class and no token falls back to itself (usable); the macro checks none of these."},
{"property": "C06", "status": "proved", "theorems": ["C06_parse_returns", "C06_default_limit", "C06_dead_symbols_refuted", "C06_precedence_cycle_refuted", "C06_hidden_recursion_refuted"], "note": "Needs usable tables and agreeing types. Conditions (a) and (b) are stated on the declarations; three refutations show they are needed."},
{"property": "C07", "status": "proved", "theorems": ["C07_never_panics", "C07_colliding_rows_refuted", "C07_types_refuted"], "note": "Holds when no row of the packed table overlaps another, no class lists a class and no token falls back to itself (usable); the macro checks none of these. Also needs types that agree (types_ok); refuted otherwise."},
{"property": "C08", "status": "proved", "theorems": ["C08_faithful_iff_rows_apart", "C08_faithful_when_roomy", "C08_packing_refuted", "C08_nested_class_refuted"], "note": "Exact: faithful if and only if no rows overlap. The unconditional form is refuted."},
{"property": "C09", "status": "proved", "theorems": ["C09_entries_fit", "C09_offsets_exact", "C09_offsets_fit_when_small", "C09_offset_refuted"], "note": "Offsets: exact condition; the unconditional form is refuted."},
{"property": "C10", "status": "proved", "theorems": ["C10_shift_reduce"], "note": ""},
{"property": "C11", "status": "proved", "theorems": ["C11_reduce_reduce", "C11_equal_precedence_refuted"], "note": ""},
{"property": "C12", "status": "proved", "theorems": ["C12_nonassoc_error", "C12_nonassoc_refuted", "C12_fallback_refuted"], "note": "For tokens without fallback in grammars without wildcard; false for both otherwise (refuted)."},
{"property": "C13", "status": "proved", "theorems": ["C13_firsts_exact"], "note": ""},
{"property": "C14", "status": "proved", "theorems": ["C14_lookaheads_exact", "C14_reductions_offered"], "note": ""},
{"property": "C15", "status": "proved", "theorems": ["C15_one_live_action", "C15_choice_made", "C15_choice_unique"], "note": ""},
{"property": "C16", "status": "proved", "theorems": ["C16_fallback_acyclic", "C16_fallback_ends", "C16_self_fallback_refuted"], "note": ""},
{"property": "C17", "status": "proved", "theorems": ["C17_own_action", "C17_fallback_used"], "note": ""},
{"property": "C18", "status": "proved", "theorems": ["C18_own_over_wildcard", "C18_wildcard_refuted"], "note": "The reduce-reduce case is refuted."},
{"property": "C19", "status": "proved", "theorems": ["C19_limit_respected", "C19_limit_only"], "note": ""},
{"property": "C20", "status": "proved", "theorems": ["C20_reports_spaced", "C20_reports_exact", "C20_error_symbol_refuted"], "note": "Exact for grammars not mentioning error; refuted with it."},
{"property": "C21", "status": "proved", "theorems": ["C21_skipped", "C21_recovery"], "note": ""},
{"property": "C22", "status": "proved", "theorems": ["C22_failed_stays", "C22_until_then_normal", "C22_end_until_then"], "note": ""},
{"property": "C23", "status": "proved", "theorems": ["C23_end_exact"], "note": ""},
{"property": "C24", "status": "proved", "theorems": ["C24_shape", "C24_shifted_was_expected", "C24_exact", "C24_after_reduction_refuted"], "note": ""},
{"property": "C25", "status": "proved", "theorems": ["C25_handlers_see_the_token", "C25_handlers_called", "C25_overflow_token_refuted"], "note": ""},
{"property": "C26", "status": "proved", "theorems": ["C26_optional_exact", "C26_optional_compound_refuted"], "note": ""},
{"property": "C27", "status": "proved", "theorems": ["C27_start_not_used", "C27_symbols_have_rules", "C27_rules_reduced", "C27_nothing_twice", "C27_stack_size_twice_refuted"], "note": ""},
{"property": "C28", "status": "proved", "theorems": ["C28_symbols_numbered", "C28_tokens_numbered"], "note": ""},
{"property": "C29", "status": "proved", "theorems": ["C29_errors_kept"], "note": ""},
{"property": "C30", "status": "proved", "theorems": ["C30_expansion_ends", "C30_self_fallback_loops_refuted"], "note": "For declarations in which no token falls back to itself; with one, refuted (C30_self_fallback_loops_refuted)."},
{"property": "C31", "status": "proved", "theorems": ["C31_accepted_any_order", "C31_order_same_run", "C31_order_unseen"], "note": "For expansions whose packed rows do not collide (usable); precedences, fallbacks and the wildcard are allowed."},
{"property": "C32", "status": "proved", "theorems": ["C32_typed_values", "C32_error_type_refuted"], "note": ""},
{"property": "C33", "status": "proved", "theorems": ["C33_class_spelled_out"], "note": ""},
{"property": "C34", "status": "proved", "theorems": ["C34_rule_precedence", "C34_later_binds_tighter"], "note": ""},
{"property": "C35", "status": "proved", "theorems": ["C35_compression_kept"], "note": ""},
{"property": "C36", "status": "proved", "theorems": ["C36_macro_never_panics", "C36_panic_reason", "C36_step_panics", "C36_second_sort", "C36_lone_tokens", "C36_macro_answers", "C36_classes_refuted", "C36_text_never_panics", "C36_text_answers"], "note": "If every token class has a first member other than the class itself and no state shifts the same token in two ways, one of them back to itself; refuted otherwise. Panics inside syn and quote are not modelled."},
{"property": "C37", "status": "proved", "theorems": ["C37_reading_found", "C37_reading_unique", "C37_texts_apart", "C37_semicolon_refuted"], "note": "For tokens as syn delivers them; syn's own parsers (types, attributes, items, blocks, patterns) are a parameter with the assumptions of [syn_ok]. The optional semicolon of a rule without block is refuted."},
{"property": "C38", "status": "proved", "theorems": ["C38_rejected_for_a_reason", "C38_accepted_faultless", "C38_accepted_decided", "C38_accepted_exactly", "C38_initials"], "note": "EFallbackType and ECompoundAlias for declarations in which classes list only tokens."},
{"property": "C39", "status": "proved", "theorems": ["C39_operators_bind"], "note": "Without %wildcard, and with %nonassoc tokens that have no %fallback (the hypotheses of C35); for usable expansions."},
{"property": "C40", "status": "proved", "theorems": ["C40_else_attached"], "note": "As C39."},
{"property": "C41", "status": "proved", "theorems": ["C41_operators_complete", "C41_operators_exact", "C41_operators_iff", "C41_nested_unique"], "note": "For grammars of operators (the record operators of PrecSpec.v), without %wildcard, and with %nonassoc tokens that have no %fallback; up to the stack limit; for usable expansions."},
{"property": "C42", "status": "proved", "theorems": ["C42_session_means", "C42_session_accepted", "C42_idle_session", "C42_idle_timed"], "note": "Soundness for every grammar and input without a discarded token; completeness for plain grammars, up to the stack limit; for usable expansions."},
{"property": "C43", "status": "proved", "theorems": ["C43_token_variants", "C43_token_extra", "C43_nonterm_types"], "note": "For grammars in which no class lists a class. Attributes of variants are not modelled."},
{"property": "C44", "status": "proved", "theorems": ["C44_mended_means", "C44_kept_means", "C44_shifted_all"], "note": "For usable expansions. Which tokens are wrong is not restated: C04, C05, C21."},
{"property": "C45", "status": "proved", "theorems": ["C45_linear", "C45_calls"], "note": "Under the conditions under which C06 says that calls return. The constant exists for each grammar; its size is not stated. For usable expansions."},
{"property": "C46", "status": "proved", "theorems": ["C46_accepted", "C46_answers", "C46_directives_refuted", "C46_rules_refuted"], "note": "Precedence lines and rules with a precedence keep their order, no %stack_size, %type or %token_class line is repeated; both orders are needed (refutations). Answers are compared for accepted inputs, without %wildcard and without %fallback on %nonassoc tokens, for usable expansions."},
{"property": "C47", "status": "proved", "theorems": ["C47_report_true", "C47_when_reported"], "note": "For names without blanks, as all identifiers are. Lines are compared word by word; that the text is printed or becomes the message of the error is taken from lines 584-590 as read."},
{"property": "C48", "status": "proved", "theorems": ["C48_extension_keeps", "C48_precedence_refuted", "C48_fallback_refuted"], "note": "For grammars without precedences and %wildcard, the old one without %fallback; precedences and old fallbacks are refuted. For usable expansions."},
{"property": "C49", "status": "proved", "theorems": ["C49_renaming", "C49_refused", "C49_error_refuted"], "note": "The condition on the name error is needed (refutation). The two lists of token names (YY_TOKEN_NAMES) differ by the renaming; all other tables are equal."},
{"property": "C50", "status": "proved", "theorems": ["C50_limit_met", "C50_stack_needed", "C50_operators", "C50_accepted"], "note": "limit_met holds for every grammar, input and outcome, with error recovery; the other three are for usable expansions and speak of the tree of an accepted input."},
{"property": "C51", "status": "proved", "theorems": ["C51_same_parser", "C51_accepted_anywhere", "C51_answers_anywhere"], "note": "The first theorem compares the two parsers call by call; the answers of the third are for usable expansions without %wildcard and without %fallback on %nonassoc tokens, as C46."},
{"property": "C52", "status": "proved", "theorems": ["C52_no_conflicts", "C52_accepted"], "note": "chooses and all_needed speak of the declarations only. A grammar that meets chooses may still be rejected for a rule that can never be used; the second theorem excludes that."},
{"property": "C53", "status": "proved", "theorems": ["C53_block", "C53_block_accepted", "C53_optional", "C53_optional_accepted", "C53_alternatives", "C53_shortcut_refuted"], "note": "For usable expansions; `?` and A|B without precedences, %wildcard and %fallback, a block that is left out without %wildcard and without %fallback on %nonassoc tokens. Refuted: a grammar that is accepted with one rule for each token can be rejected with A|B."},
{"property": "C54", "status": "proved", "theorems": ["C54_accepted", "C54_refused", "C54_syntax_accepted", "C54_syntax_refused", "C54_skeleton", "C54_trees", "C54_sentences"], "note": "Acceptance for all lists that meet the conditions of C38; the trees for usable expansions without %wildcard and without %fallback on %nonassoc tokens."}
]}
