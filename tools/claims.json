{
 "C01": {
  "status": "proved",
  "theorems": [
   "C01_recovery_transparent",
   "C01_same_exceptions",
   "C01_fuel_independent"
  ],
  "note": "All grammars of the deep embedding, all callbacks, streams, location functions and budgets."
 },
 "C02": {
  "status": "proved",
  "theorems": [
   "C02_invalid_is_reported",
   "C02_recovered_value"
  ],
  "note": ""
 },
 "C03": {
  "status": "proved",
  "theorems": [
   "C03_plain_parse_is_peg",
   "C03_scannerless",
   "C03_anywhere",
   "C03_deterministic"
  ],
  "note": "Sound and complete with respect to the big-step semantics of PegSpec.v; well-formed oracles assumed (wf)."
 },
 "C04": {
  "status": "proved",
  "theorems": [
   "C04_success_is_sentence",
   "C04_success_anywhere"
  ],
  "note": ""
 },
 "C05": {
  "status": "proved",
  "theorems": [
   "C05_repairs_sound",
   "C05_reported_repair_sound"
  ],
  "note": ""
 },
 "C06": {
  "status": "proved",
  "theorems": [
   "C06_cheapest_chosen",
   "C06_cost_is_reported"
  ],
  "note": ""
 },
 "C07": {
  "status": "proved",
  "theorems": [
   "C07_errors_ordered",
   "C07_errors_ordered_default"
  ],
  "note": ""
 },
 "C08": {
  "status": "proved",
  "theorems": [
   "C08_repairs_bounded",
   "C08_insertions_bounded",
   "C08_default",
   "C08_scannerless",
   "C08_lexer",
   "C08_zero",
   "C08_negative_unbounded"
  ],
  "note": "for every location function under which different positions have different locations (default, scannerless, tokens of split_tokens); negative max_insertions proved to be no bound at all"
 },
 "C09": {
  "status": "proved",
  "theorems": [
   "C09_eof_whole_input",
   "C09_eof_value"
  ],
  "note": ""
 },
 "C10": {
  "status": "proved",
  "theorems": [
   "C10_true_locations",
   "C10_true_locations_of_repairs",
   "C10_decimal",
   "C10_negative",
   "C10_linecol_injective",
   "C10_strings_identify"
  ],
  "note": ""
 },
 "C11": {
  "status": "proved",
  "theorems": [
   "C11_default_locations",
   "C11_default_locations_of_repairs",
   "C11_strings_identify"
  ],
  "note": ""
 },
 "C12": {
  "status": "proved",
  "theorems": [
   "C12_first_error",
   "C12_first_error_without_recover_with",
   "C12_attempt_differs",
   "C12_double_recover_with_differs"
  ],
  "note": "The two conditions are shown necessary by C12_attempt_differs and C12_double_recover_with_differs."
 },
 "C13": {
  "status": "proved",
  "theorems": [
   "C13_no_repair_plain_error",
   "C13_recover_with_differs"
  ],
  "note": "C13_recover_with_differs shows that the recover_with-free condition is needed (the code loses the expected list)."
 },
 "C14": {
  "status": "proved",
  "theorems": [
   "C14_choice_committed",
   "C14_choice_exceptions",
   "C14_choice_committed_recovery",
   "C14_alt_assoc"
  ],
  "note": ""
 },
 "C15": {
  "status": "proved",
  "theorems": [
   "C15_choice_offers",
   "C15_priority_meaning",
   "C15_recover_marks"
  ],
  "note": "Includes the corner found while proving it: if p's recovering result is an Error, all repairs of q are offered."
 },
 "C16": {
  "status": "proved",
  "theorems": [
   "C16_maybe_is_choice",
   "C16_python_maybe",
   "C16_python_choice",
   "C16_python_twice"
  ],
  "note": "C16_python_*: with Python's bare values instead of option; Case C16_python_case."
 },
 "C17": {
  "status": "proved",
  "theorems": [
   "C17_left_unit",
   "C17_right_unit",
   "C17_assoc_plain",
   "C17_assoc"
  ],
  "note": "Associativity in recovery mode is up to which of several raising callbacks raises first (same_ok); without recovery exceptions agree too."
 },
 "C18": {
  "status": "proved",
  "theorems": [
   "C18_fmap_id",
   "C18_fmap_compose_plain",
   "C18_fmap_compose",
   "C18_seq_is_bind",
   "C18_projections"
  ],
  "note": ""
 },
 "C19": {
  "status": "proved",
  "theorems": [
   "C19_label_plain",
   "C19_label_recovery",
   "C19_outermost_label_wins"
  ],
  "note": "renamed (SingleSpec.v) compares every field of the two results."
 },
 "C20": {
  "status": "proved",
  "theorems": [
   "C20_attempt_plain",
   "C20_attempt_choice",
   "C20_attempt_recovery",
   "C20_attempt_idempotent"
  ],
  "note": "Idempotence in both modes; attempt_recovery also gives the meaning of attempt in recovery mode."
 },
 "C21": {
  "status": "proved",
  "theorems": [
   "C21_many_collects",
   "C21_longest"
  ],
  "note": "Exact characterisation (iff) of results and exceptions; star = run of consuming successes."
 },
 "C22": {
  "status": "proved",
  "theorems": [
   "C22_sep_by_yields",
   "C22_sep_by_fails",
   "C22_sep_by_raises",
   "C22_between"
  ],
  "note": "Exact characterisation (iff)."
 },
 "C23": {
  "status": "proved",
  "theorems": [
   "C23_chainl1_nesting",
   "C23_chainr1_nesting",
   "C23_chainl1",
   "C23_chainr1"
  ],
  "note": "Expression trees with left-to-right evaluation fix both the value and the order of calls."
 },
 "C24": {
  "status": "proved",
  "theorems": [
   "C24_sequence",
   "C24_then",
   "C24_then_length",
   "C24_then_fails",
   "C24_then_is_seq",
   "C24_apply",
   "C24_tuple_yields",
   "C24_tuple_fails",
   "C24_tuple_raises",
   "C24_tuple_apply",
   "C24_tuple_recovery"
  ],
  "note": "Any number of parsers. C24_then* for components of one type (tuples as lists), C24_tuple_* for components of different types (TupleParser.v). Cases: C24_test_tuples (all of tests/test_tuples.py), C24_tuple_case."
 },
 "C25": {
  "status": "proved",
  "theorems": [
   "C25_mark_after_success",
   "C25_mark_after_repair"
  ],
  "note": ""
 },
 "C26": {
  "status": "proved",
  "theorems": [
   "C26_initial_context",
   "C26_inner_context",
   "C26_next_context",
   "C26_block",
   "C26_aligned",
   "C26_indented"
  ],
  "note": "iff-characterisation of all outcomes in both modes, for every context that occurs in a run of scannerless.parse (initial context, contexts after successes and repairs, inner contexts)"
 },
 "C27": {
  "status": "proved",
  "theorems": [
   "C27_initial_context",
   "C27_inner_context",
   "C27_next_context",
   "C27_block",
   "C27_aligned",
   "C27_indented",
   "C27_true_column",
   "C27_wrong_column_refuted"
  ],
  "note": "exact characterisation of the column tested, the proviso under which it is the true one, and a refutation of the unconditional claim"
 },
 "C28": {
  "status": "proved",
  "theorems": [
   "C28_lexer_tiles"
  ],
  "note": ""
 },
 "C29": {
  "status": "proved",
  "theorems": [
   "C29_lex_error",
   "C29_lex_error_str"
  ],
  "note": ""
 },
 "C30": {
  "status": "proved",
  "theorems": [
   "C30_lexer_terminates_iff",
   "C30_progress_terminates"
  ],
  "note": ""
 },
 "C31": {
  "status": "proved",
  "theorems": [
   "C31_define_outcome",
   "C31_undefined_raises",
   "C31_first_define_decides",
   "C31_redefine_changes_nothing",
   "C31_self_define"
  ],
  "note": "Histories of define calls (Delay.v, DelaySpec.v); parse calls do not change the Delay state, so they may be interleaved anywhere. d.define(d) is described by C31_self_define."
 },
 "C32": {
  "status": "proved",
  "theorems": [
   "C32_meaning_as_written",
   "C32_order_irrelevant",
   "C32_build_any_time"
  ],
  "note": "Objects may be built at any point of a history of define calls; combinators capture to_fns when built. Callbacks of bind return objects that exist when the bind is built. d.define(d) is excluded (see C31_self_define). C32_case: the recursive expression grammar, built before and after its Delay is defined."
 },
 "C33": {
  "status": "proved",
  "theorems": [
   "C33_guarded_terminates",
   "C33_no_delay_terminates",
   "C33_left_recursion_diverges",
   "C33_negative_diverges"
  ],
  "note": "Acc-based guardedness; induction on remaining input, insertion budget, left-call relation and grammar structure. The Python recursion limit is not modelled."
 },
 "C34": {
  "status": "proved",
  "theorems": [
   "C34_fmap_unwrap",
   "C34_same_repair",
   "C34_fmap_raises"
  ],
  "note": ""
 },
 "C35": {
  "status": "proved",
  "theorems": [
   "C35_message",
   "C35_lists_all",
   "C35_parse_error",
   "C35_decimal"
  ],
  "note": ""
 },
 "C36": {
  "status": "proved",
  "theorems": [
   "C36_parse_functional",
   "C36_frame",
   "C36_no_sharing",
   "C36_repairs_independent",
   "C36_unwrap_functional",
   "C36_fmap_functional",
   "C36_history",
   "C36_parse_then_unwrap",
   "C36_case"
  ],
  "note": "Heap.v models the mutable result objects (addresses, in-place updates of expected, consumed, ctx, prio); the theorems relate it to the functional model for every grammar, input, heap and history of API calls. Lists held by objects are immutable values, as the code never extends a list after storing it; user callbacks do not touch result objects."
 },
 "C37": {
  "status": "proved",
  "theorems": [
   "C37_recover_with_plain",
   "C37_recover_with_off",
   "C37_recover_with_fn",
   "C37_recover_with"
  ],
  "note": "Both variants, including exceptions of the callback."
 },
 "C38": {
  "status": "proved",
  "theorems": [
   "C38_recover_only_priorities",
   "C38_recover_plain",
   "C38_recover_idempotent"
  ],
  "note": ""
 },
 "C39": {
  "status": "proved",
  "theorems": [
   "C39_no_exception",
   "C39_total",
   "C39_many_empty",
   "C39_undefined",
   "C39_case"
  ],
  "note": "Never Raise for any fuel; with guardedness every parse returns. RecursionError and IndexError of a bad regexp group are outside the model."
 },
 "C40": {
  "status": "proved",
  "theorems": [
   "C40_token_locations",
   "C40_token_locations_of_repairs",
   "C40_token_accepts",
   "C40_token_ins"
  ],
  "note": ""
 },
 "C41": {
  "status": "proved",
  "theorems": [
   "C41_sym",
   "C41_literal",
   "C41_regexp",
   "C41_satisfy",
   "C41_satisfy_raises",
   "C41_eof"
  ],
  "note": "The regular expression engine is an arbitrary function."
 },
 "C42": {
  "status": "proved",
  "theorems": [
   "C42_replace_components",
   "C42_replace_in_definitions",
   "C42_same_parse_results"
  ],
  "note": "C42_case rewrites the recursive expression grammar inside its Delay definition."
 },
 "C43": {
  "status": "proved",
  "theorems": [
   "C43_plain_diagnostics",
   "C43_scannerless",
   "C43_deterministic"
  ],
  "note": "Equivalence (sound and complete) with the declarative diagnostics semantics diag of DiagSpec.v; concrete case C43_case."
 },
 "C44": {
  "status": "proved",
  "theorems": [
   "C44_recovery_semantics",
   "C44_anywhere",
   "C44_deterministic"
  ],
  "note": "Equivalence (sound and complete) with the declarative recovery semantics rsem of RecSpec.v plus verdict for unwrap; concrete case C44_case."
 },
 "C45": {
  "status": "proved",
  "theorems": [
   "C45_more_repairs",
   "C45_recovers_no_worse",
   "C45_unlimited_best",
   "C45_not_both_needed"
  ],
  "note": "Relational proof over the interpreter; the hypothesis excludes only parsers using both attempt and recover_with, and C45_not_both_needed shows it cannot be dropped."
 },
 "C46": {
  "status": "proved",
  "theorems": [
   "C46_valid_prefix",
   "C46_scannerless",
   "C46_case"
  ],
  "note": "By induction on the declarative semantics with diagnostics (C43); 'completable' excludes useless parsers such as one followed by unexpected()."
 },
 "C47": {
  "status": "proved",
  "theorems": [
   "C47_ll1_accepts_the_language",
   "C47_ll1_decides",
   "C47_unambiguous",
   "C47_case",
   "C47_needs_ll1"
  ],
  "note": "LL1 (LLSpec.v) is defined from the language alone (FIRST/FOLLOW conditions); the expression grammar of Examples.v is shown to be LL(1), and so its parser is characterised on all inputs."
 },
 "C48": {
  "status": "proved",
  "theorems": [
   "C48_repaired_input_accepted",
   "C48_token_repairs_accepted",
   "C48_filled_repair_accepted",
   "C48_needs_ll1"
  ],
  "note": "Combines C05 with C47. C48_filled_repair_accepted: also for recover_with, with its placeholders written out as tokens."
 },
 "C49": {
  "status": "proved",
  "theorems": [
   "C49_exact_position",
   "C49_exact_position_recovering",
   "C49_case",
   "C49_attempt_differs"
  ],
  "note": "Locality lemma (a failure depends only on the input up to the reported token) plus C46/C47."
 },
 "C50": {
  "status": "proved",
  "theorems": [
   "C50_literal",
   "C50_sym_tokens",
   "C50_names"
  ],
  "note": "Found missing by mutation testing (literal accepting the empty string, token equality ignoring the kind)."
 },
 "C51": {
  "status": "proved",
  "theorems": [
   "C51_recovery_completes",
   "C51_total",
   "C51_case",
   "C51_needs_budget",
   "C51_default"
  ],
  "note": "any grammar with a completion table; the expression grammar (recursive) completes every input when max_insertions exceeds the length"
 },
 "C52": {
  "status": "proved",
  "theorems": [
   "C52_expected_right",
   "C52_expected_right_recovering",
   "C52_end_of_file",
   "C52_attempt_differs",
   "C53_case"
  ],
  "note": "Every expected name is that of a part of the grammar any word of which can follow the input before the position. Needs attempt-freeness (counterexample proved)."
 },
 "C53": {
  "status": "proved",
  "theorems": [
   "C53_expected_complete",
   "C53_expected_complete_recovering",
   "C53_closed_items",
   "C53_exactly",
   "C53_exactly_recovering",
   "C53_exactly_case",
   "C53_same_names",
   "C53_json",
   "C53_json_exact",
   "C53_exact_case",
   "C53_case",
   "C53_many_forgets"
  ],
  "note": "Every possible next token (and end of input) is covered by an expected name, for LL(1) parsers with one token of lookahead; the prefix-freeness of repeated parts is needed (counterexample proved) and follows when they end with a token that must be there; exactly the possible next tokens when parts of the same name start with the same tokens (counterexample without that proved); JSON on all token sequences."
 },
 "C54": {
  "status": "proved",
  "theorems": [
   "C54_error_is_local",
   "C54_value_is_local",
   "C54_first_error_is_local",
   "C54_scannerless",
   "C54_case",
   "C54_literal_differs",
   "C54_attempt_differs"
  ],
  "note": "Outcome determined by the input up to and including the token where it is decided."
 },
 "C55": {
  "status": "proved",
  "theorems": [
   "C55_related",
   "C55_token_locations",
   "C55_token_parsers",
   "C55_case_all",
   "C55_case"
  ],
  "note": "The relation of parsers (grel) lists the combinators one by one; bind needs related continuations, regexps and recovery callbacks related answers at corresponding positions."
 },
 "C56": {
  "status": "proved",
  "theorems": [
   "C56_prefix",
   "C56_scannerless",
   "C56_case_all",
   "C56_case_layout",
   "C56_layout_differs",
   "C56_case"
  ],
  "note": "The prefixed parser is given one more unit of fuel (for the literal); fuel is not observable otherwise (C03). unaware_node says what regexps and callbacks must not notice."
 },
 "C57": {
  "status": "proved",
  "theorems": [
   "C57_counted",
   "C57_linear",
   "C57_exact",
   "C57_finite",
   "C57_case",
   "C57_case_exact",
   "C57_attempt_exponential",
   "C57_attempt_not_linear",
   "C57_case_count",
   "C57_no_repetition",
   "C57_case_no_repetition"
  ],
  "note": "Calls of parse functions are counted (Cost.v); the counted run is the run (C57_counted), and the numbers are those of the rules in TallySpec.v (C57_exact). C57_no_repetition: without many and Delay never more calls than parsers, attempt included."
 },
 "C58": {
  "status": "proved",
  "theorems": [
   "C58_counted",
   "C58_valid_same_calls",
   "C58_valid_at_least",
   "C58_valid_linear",
   "C58_case",
   "C58_recovery_exponential",
   "C58_recovery_exponential_fast",
   "C58_recovery_count",
   "C58_exact",
   "C58_case_exact",
   "C58_never_fewer",
   "C58_case_never_fewer",
   "C58_repairs_at_most",
   "C58_case_repairs",
   "C58_no_repetition",
   "C58_case_no_repetition"
  ],
  "note": "Calls of parse functions are counted; the recursive call of many in its recovery continuation counts as one. C58_exact: with recovery the number of calls of any run that ends is exactly the one of the rules of RTallySpec.v (over the outcomes of C44), which give one number only. C58_never_fewer: on any input, also if the run raises, at least as many calls with recovery. C58_repairs_at_most: a run never keeps more than two repairs per call. C58_no_repetition: without many and Delay the calls have a bound that depends on the size of the parser only."
 },
 "C59": {
  "status": "proved",
  "theorems": [
   "C59_pure_callbacks",
   "C59_fuel_independent",
   "C59_valid_input",
   "C59_same_exceptions",
   "C59_invalid_input",
   "C59_log"
  ],
  "note": "callbacks in a state monad (Stateful.v), proved to be the main model when they have no effects; cases C59_case (symbol table) and C59_effects_are_not_undone"
 },
 "C60": {
  "status": "proved",
  "theorems": [
   "C60_nested",
   "C60_no_delay",
   "C60_linear",
   "C60_exact",
   "C60_recovery",
   "C60_valid_same_depth",
   "C60_valid_no_delay",
   "C60_case",
   "C60_linear_attained",
   "C60_left_recursion_unbounded",
   "C60_recovery_recurses",
   "C60_exact_recovery",
   "C60_never_shallower",
   "C60_at_most_calls",
   "C60_recovery_no_repetition"
  ],
  "note": "Bounds on the nesting of parse-function calls, with and without recovery, and exactly without recovery (C60_exact; case: C57_case_exact); frames of callbacks and of iteration over results are not counted. C60_exact_recovery: the same for the nesting with recovery. C60_never_shallower, C60_at_most_calls: any parser and input.  C60_recovery_no_repetition: without many and Delay never deeper than the parser, with recovery too."
 },
 "C61": {
  "status": "proved",
  "theorems": [
   "C61_decides",
   "C61_texts",
   "C61_one_value",
   "C61_loads",
   "C61_position",
   "C61_first_position",
   "C61_repair",
   "C61_always_recovers",
   "C61_linear"
  ],
  "note": "Specification: JsonSpec.v. Corollaries of C47, C48, C49, C51, C57, C60 for the concrete parser. JsonTests.v checks the model against tests/test_json.py."
 },
 "C62": {
  "status": "proved",
  "theorems": [
   "C62_strings",
   "C62_integers",
   "C62_text",
   "C62_total",
   "C62_white_space",
   "C62_values",
   "C62_no_empty_string",
   "C62_errors",
   "C62_errors_case"
  ],
  "note": "Specification: JsonTextSpec.v. The regular expressions spec and escape are modelled by hand (C70 shows they are what their pattern texts mean); float() is a parameter; int() without its limit of 4300 digits."
 },
 "C63": {
  "status": "proved",
  "theorems": [
   "C63_decides",
   "C63_eval",
   "C63_one_value",
   "C63_position",
   "C63_first_position",
   "C63_repair",
   "C63_linear",
   "C63_case_sum",
   "C63_no_leading_space"
  ],
  "note": "Model of tests/parsers/expr.py with the classes for white space and digits as parameters (C63_eval etc. are for every choice that satisfies charset; ascii_charset shows that the ASCII classes do)."
 },
 "C64": {
  "status": "proved",
  "theorems": [
   "C64_no_delay",
   "C64_linear",
   "C64_linear_recovering",
   "C64_names_repeat",
   "C64_attempt_exponential",
   "C64_case"
  ],
  "note": "bounds for parsers without Delay and recursive ones, with concrete parsers attaining linear and (with attempt) exponential lists"
 },
 "C65": {
  "status": "proved",
  "theorems": [
   "C65_fused",
   "C65_fused_skip"
  ],
  "note": "Instances: C65_case_json, C65_case_json_skip (the two JSON parsers of the test-suite)."
 },
 "C66": {
  "status": "proved",
  "theorems": [
   "C66_same_answer",
   "C66_related",
   "C66_text",
   "C66_total",
   "C66_viable",
   "C66_viable_loads",
   "C66_linear",
   "C66_always_recovers",
   "C66_case_recovers",
   "C66_needs_budget"
  ],
  "note": "Without recovery, but for C66_always_recovers (an instance of C51). tests/test_json_scannerless.py is reproduced in JsonScanTests.v, including recovery."
 },
 "C67": {
  "status": "proved",
  "theorems": [
   "C67_text",
   "C67_one_value",
   "C67_total",
   "C67_linear"
  ],
  "note": "Characters to values, against the declarative description of documents in YamlishSpec.v (lines with columns, items nested by column). C67_total: every text has an answer, a value or one error at the end of a prefix that can be completed to a document. The white space class is a parameter; C67_case_space is Python's. The data of tests/test_yamlish.py is run in PropsYamlish.v."
 },
 "C68": {
  "status": "proved",
  "theorems": [
   "C68_same",
   "C68_depth",
   "C68_no_delay",
   "C68_linear",
   "C68_case",
   "C68_exact",
   "C68_linear_attained"
  ],
  "note": "Append objects as trees; erasure to the list model and depth bound for all runs. Exactness and growth by concrete families. A generator suspended by 'yield from' is one level; the leaf lists are not generators."
 },
 "C69": {
  "status": "proved",
  "theorems": [
   "C69_all_or_nothing",
   "C69_interrupted_iff",
   "C69_moments",
   "C69_recursion_limit",
   "C69_enough",
   "C69_left_recursion",
   "C69_case",
   "C69_callbacks",
   "C69_callbacks_between",
   "C69_case_callbacks"
  ],
  "note": "Moments are entry and exit of each parse-function call; interruption elsewhere inside a call has the same effect as at its exit because nothing is caught. Limits count parse functions, not Python frames. C69_callbacks: interruptions inside callbacks that change a state."
 },
 "C70": {
  "status": "proved",
  "theorems": [
   "C70_match",
   "C70_no_match",
   "C70_search",
   "C70_groups",
   "C70_well_formed",
   "C70_json",
   "C70_json_text",
   "C70_scannerless",
   "C70_scannerless_text",
   "C70_expr",
   "C70_expr_text",
   "C70_yamlish",
   "C70_yamlish_text",
   "C70_readable",
   "C70_syntax",
   "C70_unambiguous",
   "C70_literal",
   "C70_raising_group",
   "C70_total_group",
   "C70_group_number",
   "C70_group_numbers",
   "C70_group_name",
   "C70_group_safe",
   "C70_no_such_group",
   "C70_case_groups"
  ],
  "note": "For the subset of patterns that the reader accepts; the meaning of \\s and \\d is a parameter (for expr: disjoint from each other and from the special characters, for yamlish: no letter is white space). C70_syntax: the reader of pattern texts accepts exactly the texts of the grammar in RegexText.v (iff), C70_literal: ordinary text matches itself. C70_no_such_group: IndexError for a group that the pattern does not have, exactly when it meets a match."
 },
 "C71": {
  "status": "proved",
  "theorems": [
   "C71_threads",
   "C71_results_unchanged",
   "C71_finishes"
  ],
  "note": "Clients parse, map and unwrap in any order. Simplification: a statement reads or writes a whole result object; Delays are defined before the threads start. C71_case runs four interleaved threads."
 },
 "C72": {
  "status": "proved",
  "theorems": [
   "C72_fmap_label",
   "C72_fmap_attempt",
   "C72_fmap_recover",
   "C72_fmap_layout",
   "C72_fmap_alt",
   "C72_seq_fmap",
   "C72_bind_fmap",
   "C72_fmap_many",
   "C72_fmap_maybe",
   "C72_fmap_recover_with",
   "C72_pure_left",
   "C72_pure_right",
   "C72_seq_assoc",
   "C72_left_factor",
   "C72_right_factor",
   "C72_alt_swap",
   "C72_many_unfold",
   "C72_symbols"
  ],
  "note": "Laws with recovery as equality of all results (same / same_ok of LawSpec.v); laws without recovery as equality of values, positions, contexts, failures and exceptions. Cases: C72_case, C72_conditions_needed."
 },
 "C73": {
  "status": "proved",
  "theorems": [
   "C73_defined_during_parse",
   "C73_all_or_error",
   "C73_someone_defines",
   "C73_one_definer",
   "C73_double_define",
   "C73_half_defined",
   "C73_no_overlap"
  ],
  "note": "Case: C73_case. C73_double_define and C73_half_defined are the refutations."
 },
 "C74": {
  "status": "proved",
  "theorems": [
   "C74_best_mend",
   "C74_one_error",
   "C74_superfluous",
   "C74_superfluous_value",
   "C74_case",
   "C74_two_skipped"
  ],
  "note": "Full statement. mend is defined in MendSpec.v; non-vacuity: C74_case (all digits and junk characters), C74_case_value, C74_two_skipped."
 },
 "C75": {
  "status": "proved",
  "theorems": [
   "C75_missing",
   "C75_inserted",
   "C75_superfluous",
   "C75_one_too_many",
   "C75_json",
   "C75_json_superfluous",
   "C75_unclosed_text",
   "C75_case_one_too_many"
  ],
  "note": "Full statement. Non-vacuity: the JSON theorems are instances of the general ones; C75_case_one_too_many, C75_case_json, C75_case_json_superfluous, C75_case_text."
 },
 "C76": {
  "status": "proved",
  "theorems": [
   "C76_items_kept",
   "C76_separated_items_kept",
   "C76_first_part_kept",
   "C76_list_cut_short",
   "C76_several_mistakes",
   "C76_case",
   "C76_json"
  ],
  "note": "Full."
 },
 "C77": {
  "status": "proved",
  "theorems": [
   "C77_forgotten_value",
   "C77_placeholder",
   "C77_json",
   "C77_json_inserted"
  ],
  "note": "Full. Non-vacuity: C77_case_json (a missing value inside an object inside a list); C77_json is an instance of C77_forgotten_value and C77_json_inserted of C77_placeholder."
 },
 "C78": {
  "status": "proved",
  "theorems": [
   "C78_every_text",
   "C78_parse_list",
   "C78_accepts",
   "C78_missing_numbers",
   "C78_plain",
   "C78_not_decimal"
  ],
  "note": "All texts; the reading of TutorialSpec.v is what the model of the recovering parser does, including places, repairs and expectations."
 },
 "C79": {
  "status": "proved",
  "theorems": [
   "C79_end_repaired",
   "C79_missing_end",
   "C79_completed",
   "C79_too_many",
   "C79_readme",
   "C79_readme_too_deep",
   "C79_json",
   "C79_json_too_deep",
   "C79_json_text",
   "C79_json_text_too_deep"
  ],
  "note": "General theorems for all grammars with one token of lookahead; instances for the README and JSON parsers. Non-vacuity: C79_case_readme, C79_case_readme_too_deep, C79_case_json."
 },
 "C80": {
  "status": "proved",
  "theorems": [
   "C80_effects_follow_the_rules",
   "C80_valid_with_recovery",
   "C80_deterministic",
   "C80_pure_callbacks",
   "C80_recorded_items"
  ],
  "note": "Big-step rules with threaded state; plain parsing is sound and complete for them. Order of effects of a recovering parse of an invalid input is only bounded by C59."
 },
 "C81": {
  "status": "proved",
  "theorems": [
   "C81_wrong",
   "C81_json",
   "C81_case_json"
  ],
  "note": "Full statement. The bound is for the repair that the parser chooses; a cheaper one may exist. Non-vacuity: C81_json is an instance, C81_case_json."
 },
 "C82": {
  "status": "proved",
  "theorems": [
   "C82_effects_with_recovery",
   "C82_deterministic",
   "C82_pure_callbacks",
   "C82_case",
   "C82_second_success_is_lost"
  ],
  "note": "Both interpreters with stateful callbacks, all combinators; well-formed primitives (as for C44)."
 },
 "C83": {
  "status": "proved",
  "theorems": [
   "C83_every_error",
   "C83_first_error",
   "C83_expressions",
   "C83_json"
  ],
  "note": "Proved for all grammars without attempt whose parts can be mended (mendable_of gives a sufficient condition). C52_attempt_differs shows that attempt has to be excluded."
 },
 "C84": {
  "status": "proved",
  "theorems": [
   "C84_one_at_a_time",
   "C84_exactly",
   "C84_later_errors_complete",
   "C84_placeholders",
   "C84_placeholders_exactly",
   "C84_placeholders_complete",
   "C84_closed_items_complete",
   "C84_says_exactly",
   "C84_json",
   "C84_json_complete",
   "C84_json_exact",
   "C84_case",
   "C84_readme"
  ],
  "note": "Any number of errors, all inputs; incl in general, equality of expectations when repeated items end with a token; placeholders of recover_with included when they are values of texts; README parser on all texts, JSON on all token sequences, where every error says exactly what can come next."
 }
}