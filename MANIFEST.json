{
 "claims": [
  {
   "property": "C01",
   "status": "proved",
   "theorems": [
    "C01_max_never_exceeded",
    "C01_declared_max_never_exceeded"
   ],
   "note": ""
  },
  {
   "property": "C02",
   "status": "proved",
   "theorems": [
    "C02_satisfied_iff_in_limits",
    "C02_satisfied_stays"
   ],
   "note": ""
  },
  {
   "property": "C03",
   "status": "proved",
   "theorems": [
    "C03_times_range",
    "C03_times_exactly",
    "C03_times_at_least",
    "C03_times_at_most",
    "C03_times_fixed",
    "C03_writable_limits",
    "C03_limits_of_expectation",
    "C03_invalid_limits"
   ],
   "note": ""
  },
  {
   "property": "C04",
   "status": "proved",
   "theorems": [
    "C04_one_outcome_report",
    "C04_which_outcome",
    "C04_matched_iff_candidate"
   ],
   "note": ""
  },
  {
   "property": "C05",
   "status": "proved",
   "theorems": [
    "C05_failed_call_changes_nothing",
    "C05_counts_and_applicability"
   ],
   "note": ""
  },
  {
   "property": "C06",
   "status": "proved",
   "theorems": [
    "C06_matched_call_touches_one",
    "C06_failed_call_touches_none"
   ],
   "note": ""
  },
  {
   "property": "C07",
   "status": "proved",
   "theorems": [
    "C07_newest_without_sequence_wins",
    "C07_newest_wins"
   ],
   "note": ""
  },
  {
   "property": "C08",
   "status": "proved",
   "theorems": [
    "C08_failure_reports"
   ],
   "note": ""
  },
  {
   "property": "C09",
   "status": "proved",
   "theorems": [
    "C09_as_if_absent",
    "C09_one_report"
   ],
   "note": ""
  },
  {
   "property": "C10",
   "status": "proved",
   "theorems": [
    "C10_scope_end",
    "C10_reported_once_iff",
    "C10_over_for_good",
    "C10_others_unaffected",
    "C10_scope_end_defined",
    "C10_always_reported_refuted"
   ],
   "note": ""
  },
  {
   "property": "C11",
   "status": "proved",
   "theorems": [
    "C11_scope_end",
    "C11_move_assignment",
    "C11_drop_sequence",
    "C11_throwing_description_refuted"
   ],
   "note": ""
  },
  {
   "property": "C12",
   "status": "proved",
   "theorems": [
    "C12_calls_in_attachment_order",
    "C12_earlier_reached_min",
    "C12_earlier_never_again"
   ],
   "note": "Over the trace of every program: accept events of one sequence in attachment order, minima reached before, earlier ones never accept again."
  },
  {
   "property": "C13",
   "status": "proved",
   "theorems": [
    "C13_applicable_iff_history",
    "C13_sole_expectation",
    "C13_nothing_else_matters"
   ],
   "note": "The cursor/state test of the library equals the history predicate; two programs with equal limits, attachments and counts agree."
  },
  {
   "property": "C14",
   "status": "proved",
   "theorems": [
    "C14_lazy_matches_earliest_greedy_latest"
   ],
   "note": ""
  },
  {
   "property": "C15",
   "status": "proved",
   "theorems": [
    "C15_unanimous",
    "C15_selected_has_sequences_of_newest",
    "C15_vote"
   ],
   "note": ""
  },
  {
   "property": "C16",
   "status": "proved",
   "theorems": [
    "C16_selection_rule",
    "C16_one_match",
    "C16_least_progress_refuted",
    "C16_preference_is_no_order_refuted"
   ],
   "note": "The user expectation is refuted by a reachable witness (C16_least_progress_refuted, C16_preference_is_no_order_refuted); what holds instead is proved as the exact rule (C16_selection_rule, C16_one_match)."
  },
  {
   "property": "C17",
   "status": "proved",
   "theorems": [
    "C17_same_sequence_rejected",
    "C17_distinct_sequences_accepted",
    "C17_config",
    "C17_concat"
   ],
   "note": ""
  },
  {
   "property": "C18",
   "status": "proved",
   "theorems": [
    "C18_error_iff",
    "C18_error_at_last_owner",
    "C18_unfulfilled_before"
   ],
   "note": "For programs which go on (a reporter which throws from the destructor ends the program, see C59). The earlier unfulfilled report needs a description which can be obtained (see C58)."
  },
  {
   "property": "C19",
   "status": "proved",
   "theorems": [
    "C19_numbers",
    "C19_literal_reading_refuted"
   ],
   "note": "N = number ever attached, K = number before the first unmet one; the literal reading is refuted by a witness."
  },
  {
   "property": "C20",
   "status": "proved",
   "theorems": [
    "C20_appended"
   ],
   "note": ""
  },
  {
   "property": "C21",
   "status": "proved",
   "theorems": [
    "C21_legal_use_is_defined"
   ],
   "note": "All operations of the model; legal use excludes moved-from objects, reporters violating their contract and ending the scope of the expectation handling a running call."
  },
  {
   "property": "C22",
   "status": "proved",
   "theorems": [
    "C22_blocks_forever",
    "C22_ending_does_not_block"
   ],
   "note": ""
  },
  {
   "property": "C23",
   "status": "proved",
   "theorems": [
    "C23_report_and_count_first",
    "C23_effects_in_order",
    "C23_effects_as_attached",
    "C23_count_observed",
    "C23_completes"
   ],
   "note": "Report and count happen in the atomic call step; effects are interleaved with arbitrary other operations, including nested calls."
  },
  {
   "property": "C24",
   "status": "proved",
   "theorems": [
    "C24_exhausted_never_rematched",
    "C24_nested_call_never_rematches",
    "C24_nesting_is_irrelevant"
   ],
   "note": ""
  },
  {
   "property": "C25",
   "status": "proved",
   "theorems": [
    "C25_own_scope_is_undefined",
    "C25_own_scope_refuted",
    "C25_other_scopes_are_safe",
    "C25_finalizers_may_end_their_scope"
   ],
   "note": "The user expectation is refuted by a witness and a general theorem; safety for all other scopes is proved."
  },
  {
   "property": "C26",
   "status": "proved",
   "theorems": [
    "C26_finalizer_exception",
    "C26_side_effect_exception_terminates"
   ],
   "note": ""
  },
  {
   "property": "C27",
   "status": "proved",
   "theorems": [
    "C27_limit_with_asserts",
    "C27_asserts_hit_refuted",
    "C27_limit_refuted",
    "C27_unbounded_refuted",
    "C27_scope_ended_refuted"
   ],
   "note": "The user expectation is refuted by witnesses (for every number of calls up to INT_MAX); the bound with asserts is proved for all interleavings. Steps are atomic and sequentially consistent."
  },
  {
   "property": "C28",
   "status": "proved",
   "theorems": [
    "C28_counted_calls_were_accepted",
    "C28_count_is_exact",
    "C28_serialised",
    "C28_serialised_calls",
    "C28_serialised_operations",
    "C28_serialised_limit"
   ],
   "note": "Simulation by a single-threaded program for serialised executions; invariants for all interleavings. Steps are atomic and sequentially consistent."
  },
  {
   "property": "C29",
   "status": "proved",
   "theorems": [
    "C29_candidates_have_own_overload",
    "C29_matched_only_through_own_overload"
   ],
   "note": ""
  },
  {
   "property": "C30",
   "status": "proved",
   "theorems": [
    "C30_overloadable_iff_language_rule",
    "C30_overload_set_iff_language_rule",
    "C30_symmetric",
    "C30_order_independent",
    "C30_return_type_and_noexcept_ignored"
   ],
   "note": ""
  },
  {
   "property": "C31",
   "status": "proved",
   "theorems": [
    "C31_parts_determine",
    "C31_decay_removes_qualifiers_only",
    "C31_noexcept_laws",
    "C31_decay_equal_iff",
    "C31_accessors_ignore_qualifiers"
   ],
   "note": ""
  },
  {
   "property": "C32",
   "status": "proved",
   "theorems": [
    "C32_each_decayed_signature_once",
    "C32_shared_iff_decay_equal",
    "C32_collections_in_programs"
   ],
   "note": ""
  },
  {
   "property": "C33",
   "status": "proved",
   "theorems": [
    "C33_noexcept_never_throws",
    "C33_unmatched",
    "C33_finalizer_exception_terminates",
    "C33_noexcept_return_never_throws"
   ],
   "note": ""
  },
  {
   "property": "C34",
   "status": "proved",
   "theorems": [
    "C34_move_follows",
    "C34_destroy_changes_nothing",
    "C34_move_assign_follows",
    "C34_moved_from_is_undefined"
   ],
   "note": ""
  },
  {
   "property": "C35",
   "status": "proved",
   "theorems": [
    "C35_move_transfers",
    "C35_moved_from_ends_silently",
    "C35_assign_ends_and_transfers",
    "C35_assign_unfulfilled_terminates",
    "C35_assign_like_scope_end_refuted"
   ],
   "note": ""
  },
  {
   "property": "C36",
   "status": "proved",
   "theorems": [
    "C36_expression",
    "C36_order_independent",
    "C36_expectation",
    "C36_second_times",
    "C36_second_finalizer",
    "C36_finalizer_required",
    "C36_finalizer_given"
   ],
   "note": ""
  },
  {
   "property": "C37",
   "status": "proved",
   "theorems": [
    "C37_negation",
    "C37_nested",
    "C37_inverted_text",
    "C37_comparison_texts",
    "C37_string_texts",
    "C37_range_texts",
    "C37_general_texts"
   ],
   "note": "For the generic PredicateMatcher, so for all built-in matchers; exceptions and undefined behaviour of the predicate included; plus the texts of all built-in matchers and their negations."
  },
  {
   "property": "C38",
   "status": "proved",
   "theorems": [
    "C38_exact",
    "C38_relations",
    "C38_complements",
    "C38_partial_orders_refuted",
    "C38_others"
   ],
   "note": "Exact answers for arbitrary operators; complements for total orders; refuted for NaN-like values."
  },
  {
   "property": "C39",
   "status": "proved",
   "theorems": [
    "C39_eq",
    "C39_starts_with",
    "C39_mismatch",
    "C39_ends_with",
    "C39_contains",
    "C39_empty_pattern"
   ],
   "note": "For all string kinds; search and mismatch modelled as algorithms."
  },
  {
   "property": "C40",
   "status": "proved",
   "theorems": [
    "C40_exact",
    "C40_invariant"
   ],
   "note": "Independent specification: equal up to the case of the 26 ASCII letters."
  },
  {
   "property": "C41",
   "status": "proved",
   "theorems": [
    "C41_case_folding_refuted",
    "C41_eq_exactly",
    "C41_unsigned_platforms",
    "C41_signed_platforms"
   ],
   "note": "Refuted with witness, exact condition for eq, and the cases in which folding is defined."
  },
  {
   "property": "C42",
   "status": "proved",
   "theorems": [
    "C42_views",
    "C42_nul_in_target",
    "C42_full_length"
   ],
   "note": "Exact characterisation of the view of every string kind."
  },
  {
   "property": "C43",
   "status": "proved",
   "theorems": [
    "C43_eq",
    "C43_unordered_eq",
    "C43_unordered_eq_plain",
    "C43_is_sorted",
    "C43_sizes",
    "C43_each_element",
    "C43_any_element",
    "C43_duality"
   ],
   "note": "Algorithms of the standard library modelled and related to Forall2 / Permutation / order; exceptions of inner matchers included."
  },
  {
   "property": "C44",
   "status": "proved",
   "theorems": [
    "C44_conjunction",
    "C44_arguments",
    "C44_all_reported",
    "C44_no_short_circuit"
   ],
   "note": ""
  },
  {
   "property": "C45",
   "status": "proved",
   "theorems": [
    "C45_numbers",
    "C45_layout",
    "C45_distinguishes",
    "C45_integer_ranges",
    "C45_string_ranges_refuted",
    "C45_enums",
    "C45_location"
   ],
   "note": "The same for ranges of narrow strings is refuted by a witness. Custom printers and floating point numbers are not modelled."
  },
  {
   "property": "C46",
   "status": "proved",
   "theorems": [
    "C46_times_text",
    "C46_phase",
    "C46_text_tells_numbers"
   ],
   "note": ""
  },
  {
   "property": "C47",
   "status": "proved",
   "theorems": [
    "C47_layout",
    "C47_truthful",
    "C47_verdicts"
   ],
   "note": ""
  },
  {
   "property": "C48",
   "status": "proved",
   "theorems": [
    "C48_delivered_to_last_installed",
    "C48_last_installed_reacts"
   ],
   "note": ""
  },
  {
   "property": "C49",
   "status": "proved",
   "theorems": [
    "C49_default_reporter",
    "C49_error_data",
    "C49_basic_reporter",
    "C49_basic_reporter_left",
    "C49_default_reaction",
    "C49_basic_reaction",
    "C49_delivered_reports_are_proper",
    "C49_calls_send_proper_reports",
    "C49_no_assert"
   ],
   "note": "Includes that every report passed to a reporter satisfies the asserts of DefaultReporter."
  },
  {
   "property": "C50",
   "status": "proved",
   "theorems": [
    "C50_is_a_program",
    "C50_called_once",
    "C50_who_calls",
    "C50_destruction",
    "C50_collection",
    "C50_at_most_one",
    "C50_unexpected",
    "C50_expected",
    "C50_unfulfilled",
    "C50_second_throws",
    "C50_flag_only_by_announcing",
    "C50_first_succeeds",
    "C50_no_times"
   ],
   "note": "Model of ObjectWatcher.hpp (Watcher.v): programs with watchers are programs of World.v (C50_is_a_program). All histories: called exactly once, unexpected -> no-match report, expected -> silent wherever the identity has been moved to, unfulfilled when the identity outlives the scope, second expect_destruct throws logic_error (and only a second one)."
  },
  {
   "property": "C51",
   "status": "proved",
   "theorems": [
    "C51_move",
    "C51_moved_from_is_silent",
    "C51_expecting_moved_from",
    "C51_copy",
    "C51_copy_assign",
    "C51_copy_assign_ends",
    "C51_copy_assign_moved_from",
    "C51_move_assign",
    "C51_lost_only_by_assignment",
    "C51_unique",
    "C51_every_identity_reported_refuted"
   ],
   "note": "Moves, copies, copy assignment (also to itself, also of a moved-from watcher), move assignment. The claim that every identity is reported exactly once is refuted (move assignment); C51_lost_only_by_assignment states the exact exceptions."
  },
  {
   "property": "C52",
   "status": "proved",
   "theorems": [
    "C52_unique",
    "C52_relocation",
    "C52_move_ends",
    "C52_assign_ends",
    "C52_throwing_relocation",
    "C52_copy",
    "C52_copy_assign",
    "C52_expect",
    "C52_limit",
    "C52_counts_relocations",
    "C52_moving_moved_from",
    "C52_every_move_reported_refuted"
   ],
   "note": "Each move from a watched object makes one report; afterwards the expectations belong to the target; the count is raised only by moves; declared limits hold wherever the object went. For moved-from objects the claim is refuted (null dereference)."
  },
  {
   "property": "C53",
   "status": "proved",
   "theorems": [
    "C53_side_effects",
    "C53_nothing_else_is_modified",
    "C53_index_out_of_range",
    "C53_throwing_side_effect_terminates",
    "C53_terminates_only_by_throwing",
    "C53_completes",
    "C53_in_world"
   ],
   "note": "Memory model of side effects (Actions.v): arguments bound as C++ does, selected arguments handed by reference in order, threading of modifications, frame for functions changing only what they get, aliasing and repetition included; throwing side effects terminate; linked to the effects of the world model."
  },
  {
   "property": "C54",
   "status": "proved",
   "theorems": [
    "C54_returns",
    "C54_throws",
    "C54_void",
    "C54_apply",
    "C54_apply_all",
    "C54_result_of",
    "C54_arg",
    "C54_stored_completes",
    "C54_arg_value",
    "C54_returns_every_time",
    "C54_returns_reference_every_time",
    "C54_throws_every_time",
    "C54_stored_apart",
    "C54_in_world",
    "C54_returns_reference_refuted",
    "C54_arg_outlives_call_refuted",
    "C54_arg_reference"
   ],
   "note": "All finalizers over all calls and histories; the two ways in which references defeat the intuition (writing through a returned reference; returns_arg by reference of a by-value parameter) are the _refuted theorems."
  },
  {
   "property": "C55",
   "status": "proved",
   "theorems": [
    "C55_below_limit_succeeds",
    "C55_over_limit_terminates",
    "C55_runtime_error_refuted"
   ],
   "note": "The user expectation (std::runtime_error) is refuted by a reachable program with INT_MAX+1 attached expectations; below the limit attaching succeeds."
  },
  {
   "property": "C56",
   "status": "proved",
   "theorems": [
    "C56_rule"
   ],
   "note": "Exact characterisation of every rule, including the static_assert."
  },
  {
   "property": "C57",
   "status": "proved",
   "theorems": [
    "C57_expansion_unique",
    "C57_arguments",
    "C57_strip_parens",
    "C57_param_list",
    "C57_forward_args",
    "C57_param_list_overflow",
    "C57_forward_args_overflow",
    "C57_names",
    "C57_add_overload",
    "C57_signature_list",
    "C57_mock_overloaded_method",
    "C57_mock_method",
    "C57_signature_without_parens",
    "C57_selection",
    "C57_specifier_commas",
    "C57_paste",
    "C57_operator_names",
    "C57_operator_names_method",
    "C57_signature_parens_refuted"
   ],
   "note": "The preprocessor (argument collection, pasting, __VA_OPT__, rescanning, names not available during their own replacement) is modelled as a program and all macros of InterfaceMock.hpp are its data. For every list of up to 86 types/overloads the exact generated tokens are proved: parameter list, forwards, signature list, overriding methods and mock; the names arg_i, arg_ii, ... are pairwise distinct. Capacity is exactly 86: with more elements an unexpanded continuation remains (exact text proved). Refuted: parentheses around types are not removed from the mock's signature. Model: no white space, only identifiers are pasted, user macros absent, nesting rule of GCC/Clang/MSVC."
  },
  {
   "property": "C58",
   "status": "proved",
   "theorems": [
    "C58_throwing_description_terminates",
    "C58_isolation_refuted",
    "C58_all_threw_looks_empty",
    "C58_misleading_text_refuted"
   ],
   "note": ""
  },
  {
   "property": "C59",
   "status": "proved",
   "theorems": [
    "C59_drop_terminates",
    "C59_last_expectation_terminates",
    "C59_catchable_refuted"
   ],
   "note": "The user expectation is refuted: general theorem for both kinds of last owner plus a witness with the DefaultReporter."
  },
  {
   "property": "C60",
   "status": "proved",
   "theorems": [
    "C60_lines",
    "C60_expectation_lines",
    "C60_lines_read",
    "C60_values_read_refuted",
    "C60_call_text",
    "C60_expectation_text",
    "C60_failure_text",
    "C60_kinds",
    "C60_sequence_message"
   ],
   "note": "typeid names are a parameter."
  },
  {
   "property": "C61",
   "status": "proved",
   "theorems": [
    "C61_printable",
    "C61_null_argument_refuted"
   ],
   "note": "Refuted with witness; exact condition."
  },
  {
   "property": "C62",
   "status": "proved",
   "theorems": [
    "C62_by_value",
    "C62_by_reference_refuted"
   ],
   "note": "Refuted for references, proved for values."
  },
  {
   "property": "C63",
   "status": "proved",
   "theorems": [
    "C63_hook",
    "C63_nested_refuted"
   ],
   "note": "Refuted for nested matchers."
  },
  {
   "property": "C64",
   "status": "proved",
   "theorems": [
    "C64_predicate_description",
    "C64_descriptions",
    "C64_predicate_outcome",
    "C64_braces_refuted",
    "C64_instance_refuted"
   ],
   "note": "Refuted with witnesses, proved for texts without braces."
  },
  {
   "property": "C65",
   "status": "proved",
   "theorems": [
    "C65_tuples_refuted"
   ],
   "note": "Refuted for tuples and pairs, proved otherwise."
  },
  {
   "property": "C66",
   "status": "proved",
   "theorems": [
    "C66_info_equality"
   ],
   "note": "Equality of call::Info: same objects, category, constness and location."
  },
  {
   "property": "C67",
   "status": "proved",
   "theorems": [
    "C67_accesses_of_accepted_calls",
    "C67_accesses_of_new_expectations",
    "C67_accesses_of_matching",
    "C67_reports_are_delivered",
    "C67_accesses_of_scope_ends",
    "C67_user_code",
    "C67_every_requirement_is_asked",
    "C67_lists_never_race",
    "C67_separate_calls_never_race",
    "C67_calls_on_one_mock_race",
    "C67_calls_never_race_refuted",
    "C67_match_races_with_pending_call",
    "C67_match_races_with_counted_call",
    "C67_shared_sequence_races",
    "C67_is_satisfied_races",
    "C67_install_races"
   ],
   "note": "Each step of the thread model is refined to its memory accesses and mutex operations (Race.v); happens-before and race are defined as in C++ (program order, unlock/lock). Proved: lists never race; calls with separate mocks and sequences never race; two calls on one mock always race on a counter, two mocks with a common sequence always race on it, is_satisfied and install race. One place stands for all members of a sequence."
  },
  {
   "property": "C68",
   "status": "proved",
   "theorems": [
    "C68_user_code_under_mutex",
    "C68_one_mutex_at_a_time",
    "C68_no_deadlock",
    "C68_ordered_use_no_deadlock",
    "C68_matcher_calls_own_mock_refuted",
    "C68_reporter_calls_mock_refuted",
    "C68_matchers_deadlock_refuted"
   ],
   "note": "Which user code runs under the mutex, at most one mutex per thread, absence of deadlock for all schedules if locked user code takes no mutex (or only in ascending order); witnesses for relocking and deadlock."
  },
  {
   "property": "C69",
   "status": "proved",
   "theorems": [
    "C69_documented_order",
    "C69_nearer_base_is_better",
    "C69_best_candidate",
    "C69_internal_printer",
    "C69_custom_first_refuted",
    "C69_standard_types",
    "C69_text",
    "C69_one_text",
    "C69_every_object",
    "C69_values",
    "C69_values_suffice",
    "C69_tuples_and_ranges_look_alike",
    "C69_ranges_in_themselves_refuted",
    "C69_paths_refuted"
   ],
   "note": "Overload resolution by priority_tag and choice of the Printer specialisation modelled over type traits (Dispatch.v); documented order proved for all trait combinations without clash, clash = does not compile; texts of objects (with sharing and cycles) are characterised by an inductive spec, shown equal to Printer.print on finite values; std::filesystem::path never ends. Traits of 32 kinds of types are tabulated."
  },
  {
   "property": "C70",
   "status": "proved",
   "theorems": [
    "C70_up_to_zero",
    "C70_embedded_zero_refuted",
    "C70_unterminated_refuted",
    "C70_string_text",
    "C70_prefixes",
    "C70_code_units",
    "C70_char_values",
    "C70_one_char_per_unit",
    "C70_models_agree"
   ],
   "note": "Memory view of C strings: cut at the first zero, undefined iff there is none; exact text for all character types."
  },
  {
   "property": "C71",
   "status": "proved",
   "theorems": [
    "C71_call",
    "C71_expect_call",
    "C71_call_same_parameters",
    "C71_expect_call_same_parameters",
    "C71_same_overload",
    "C71_chosen_fits_the_object",
    "C71_order_independent",
    "C71_return_type_and_noexcept_ignored",
    "C71_expect_call_like_call_refuted",
    "C71_same_arguments_same_overload_refuted",
    "C71_object_outweighs_arguments_refuted",
    "C71_location_parameter_refuted",
    "C71_object_preference",
    "C71_object_preference_strict"
   ],
   "note": "Conversions and their ranking are parameters (arbitrary relations); witnesses use the conversions of int, double, string_view, string, any and source_location. The order of preference of the object is proved from the rules of overload resolution."
  },
  {
   "property": "C72",
   "status": "proved",
   "theorems": [
    "C72_make_entries",
    "C72_set_satisfied",
    "C72_set_saturated",
    "C72_consume",
    "C72_add",
    "C72_destructor",
    "C72_priority",
    "C72_priorities_ordered",
    "C72_history",
    "C72_next_call",
    "C72_consumed_in_order",
    "C72_policy_consume",
    "C72_policy_consume_release",
    "C72_release_primitives",
    "C72_policy_state",
    "C72_policy_counts"
   ],
   "note": "Function contracts in both directions (success iff precondition, exact effect, UB otherwise), histories of one sequence, debug and release builds."
  },
  {
   "property": "C73",
   "status": "proved",
   "theorems": [
    "C73_framework_uses",
    "C73_left",
    "C73_world_reporter",
    "C73_undefined",
    "C73_boost_messages_distinct",
    "C73_unhandled_reported_refuted"
   ],
   "note": "The frameworks are arbitrary functions from the used macro and text to returns/throws/terminates."
  },
  {
   "property": "C74",
   "status": "proved",
   "theorems": [
    "C74_last_installed",
    "C74_default",
    "C74_end_untouched",
    "C74_end",
    "C74_clean_iff",
    "C74_adapter_first",
    "C74_static_expectations_refuted"
   ],
   "note": "Static objects are destroyed in reverse order of the completion of their construction; all reporters of the library leave the report of an unfulfilled object by an exception."
  },
  {
   "property": "C75",
   "status": "proved",
   "theorems": [
    "C75_location",
    "C75_control_state",
    "C75_call_report",
    "C75_expectation_report",
    "C75_match_report",
    "C75_equal_texts",
    "C75_infos",
    "C75_infos_converse_refuted",
    "C75_text_determines_refuted"
   ],
   "note": "Locations are pointers into a memory of strings."
  },
  {
   "property": "C76",
   "status": "proved",
   "theorems": [
    "C76_passed_test_conforms",
    "C76_conforming_call_accepted",
    "C76_test_passes_iff_conforms",
    "C76_nonconforming_test_fails",
    "C76_order_irrelevant",
    "C76_one_sequence",
    "C76_program_without_failure_conforms",
    "C76_program_passes_iff_conforms",
    "C76_program_distribution",
    "C76_ambiguous_lazy_refuted",
    "C76_ambiguous_greedy_refuted",
    "C76_ambiguous_newer_refuted"
   ],
   "note": "C76_program_*: any mixture of operations. The other theorems: expectations are created before the body and destroyed after it. The reporters obey their contract and descriptions do not throw; the soundness direction does not need the contract."
  },
  {
   "property": "C77",
   "status": "proved",
   "theorems": [
    "C77_parts",
    "C77_waits_with_its_watcher",
    "C77_any_copy",
    "C77_any_unexpected_destruction",
    "C77_copy_assignment",
    "C77_copy_assignment_completes",
    "C77_any_failed_move_assignment",
    "C77_always_possible",
    "C77_same_exception_specifications",
    "C77_override",
    "C77_override_rule",
    "C77_derived_destructor",
    "C77_copies",
    "C77_library_watchers",
    "C77_combined_moves",
    "C77_vector_growth",
    "C77_movable_like_base_refuted",
    "C77_is_a_watcher_program",
    "C77_shapes",
    "C77_destruction_reported_once",
    "C77_unexpected_destruction",
    "C77_noexcept_move_terminates",
    "C77_failed_move_changes_nothing",
    "C77_failed_move_terminates",
    "C77_failed_move_uses_up_destruction",
    "C77_move_lifetime_only",
    "C77_move_waits",
    "C77_move_completes",
    "C77_failed_move_assignment",
    "C77_copy",
    "C77_failed_move_keeps_object_refuted"
   ],
   "note": "The special members of Base are not observable and do not throw; the watchers are LifetimeWatcher and RelocationWatcher. Ownership of the watchers is an invariant of all programs (PropOwned)."
  },
  {
   "property": "C78",
   "status": "proved",
   "theorems": [
    "C78_operation",
    "C78_program",
    "C78_continuation",
    "C78_reachable_states",
    "C78_history_suffices"
   ],
   "note": "Single-threaded programs of the operations of World.v."
  },
  {
   "property": "C79",
   "status": "proved",
   "theorems": [
    "C79_call_as_if_constant",
    "C79_program_as_if_constant",
    "C79_stateless",
    "C79_questions",
    "C79_quiet_call_asks_everything",
    "C79_limits_and_sequences",
    "C79_unfulfilled",
    "C79_search_stops_refuted",
    "C79_exhausted_left_alone_refuted"
   ],
   "note": "The user code may not touch the library (it runs while the mutex of the collection is held)."
  },
  {
   "property": "C80",
   "status": "proved",
   "theorems": [
    "C80_every_program",
    "C80_failures",
    "C80_limits",
    "C80_sequence_lifetime",
    "C80_conservative",
    "C80_expression",
    "C80_untouched",
    "C80_deferred",
    "C80_throwing_operand",
    "C80_others_never_throw",
    "C80_used_up",
    "C80_no_second_use",
    "C80_second_use_undefined",
    "C80_assignable",
    "C80_quiet",
    "C80_keeps_sequences",
    "C80_gives_sequences",
    "C80_finalized_holds_nothing_refuted"
   ],
   "note": "Undefined are only uses of a used-up builder, besides what is undefined without builders (C80_failures)."
  },
  {
   "property": "C81",
   "status": "proved",
   "theorems": [
    "C81_conservative",
    "C81_stages",
    "C81_builder_noexcept",
    "C81_failures_count_nothing",
    "C81_limits",
    "C81_applicable_iff_history",
    "C81_accepted_by_candidates",
    "C81_sequence_error_iff",
    "C81_half_built_blocks",
    "C81_half_built_complains",
    "C81_optional_is_harmless",
    "C81_half_built_never_reported",
    "C81_lost_report",
    "C81_lost_report_assigned",
    "C81_strong_guarantee_refuted"
   ],
   "note": "The strong exception guarantee is refuted by a witness. Failing operations of stored builders: C97."
  },
  {
   "property": "C82",
   "status": "proved",
   "theorems": [
    "C82_counted_only_if_open",
    "C82_sequences_in_order",
    "C82_undisturbed",
    "C82_release_until_assert",
    "C82_asserts_only_stop",
    "C82_release_if_open",
    "C82_not_linearizable_refuted",
    "C82_order_refuted"
   ],
   "note": "Violations are given by witnesses."
  },
  {
   "property": "C83",
   "status": "proved",
   "theorems": [
    "C83_callbacks_are_threads",
    "C83_counted_calls_were_accepted",
    "C83_count_is_exact",
    "C83_limit_with_asserts",
    "C83_sequences_in_order",
    "C83_harmless_callback",
    "C83_quiet_callback",
    "C83_conservative",
    "C83_limit_refuted",
    "C83_assert_refuted",
    "C83_scope_ended_refuted",
    "C83_throwing_callback"
   ],
   "note": "Only the callback of a full match may use mocks; the limits are refuted by single-threaded witnesses."
  },
  {
   "property": "C84",
   "status": "proved",
   "theorems": [
    "C84_conservative",
    "C84_unprintable_call",
    "C84_nothing_happens",
    "C84_programs",
    "C84_reachable",
    "C84_expected_call_accepted_refuted",
    "C84_unexpected_call_reported_refuted"
   ],
   "note": "The two expectations one could have are refuted by witnesses."
  },
  {
   "property": "C85",
   "status": "proved",
   "theorems": [
    "C85_from_is_the_declaration",
    "C85_when",
    "C85_moves"
   ],
   "note": "For all histories after the declaration."
  },
  {
   "property": "C86",
   "status": "proved",
   "theorems": [
    "C86_is_program",
    "C86_operations",
    "C86_arguments",
    "C86_library_keeps_objects",
    "C86_as_written",
    "C86_body",
    "C86_side_effect_runs",
    "C86_every_time",
    "C86_failed_expression",
    "C86_possible_expressions",
    "C86_failed_expression_keeps_objects_refuted",
    "C86_every_time_refuted"
   ],
   "note": "Puts the world model and the memory model together; the two intuitions which fail are refuted by witnesses."
  },
  {
   "property": "C87",
   "status": "proved",
   "theorems": [
    "C87_library_policies",
    "C87_conservative",
    "C87_call",
    "C87_limits_and_sequences",
    "C87_satisfied",
    "C87_scope_end",
    "C87_replaced",
    "C87_no_undefined_behaviour",
    "C87_successors_wait_refuted",
    "C87_report_explains_refuted"
   ],
   "note": "User policies with arbitrary state; two plausible intuitions about sequences and reports are refuted by witnesses."
  },
  {
   "property": "C88",
   "status": "proved",
   "theorems": [
    "C88_conservative",
    "C88_as_if_frozen",
    "C88_as_another_program",
    "C88_transfer",
    "C88_limits",
    "C88_told",
    "C88_same_again_refuted"
   ],
   "note": "Reporters with arbitrary state; every step is simulated by a reporter without a state."
  },
  {
   "property": "C89",
   "status": "proved",
   "theorems": [
    "C89_ratings",
    "C89_selection",
    "C89_config",
    "C89_text",
    "C89_reuse"
   ],
   "note": "Justifies the model's identities of sequences, which are never used twice."
  },
  {
   "property": "C90",
   "status": "proved",
   "theorems": [
    "C90_mismatch",
    "C90_plain",
    "C90_folded",
    "C90_same_folding",
    "C90_failures",
    "C90_plain_failures",
    "C90_symmetric",
    "C90_per_character",
    "C90_piecewise",
    "C90_part_of_target_refuted",
    "C90_code_points",
    "C90_builtin",
    "C90_texts"
   ],
   "note": "The converter is a parameter; uni_algo itself is not modelled."
  },
  {
   "property": "C91",
   "status": "proved",
   "theorems": [
    "C91_add_noexcept",
    "C91_remove_noexcept",
    "C91_decay",
    "C91_one_specialisation",
    "C91_no_specialisation",
    "C91_as_modelled",
    "C91_params",
    "C91_volatile",
    "C91_constraint",
    "C91_overloadable",
    "C91_overload_set",
    "C91_variadic_sets",
    "C91_super",
    "C91_frontend",
    "C91_frontend_as_modelled",
    "C91_no_frontend",
    "C91_distinct",
    "C91_mock",
    "C91_new_mock",
    "C91_uint"
   ],
   "note": "The rows of the tables were read from the headers one by one; hard errors and substitution failures are distinguished."
  },
  {
   "property": "C92",
   "status": "proved",
   "theorems": [
    "C92_call_compiles",
    "C92_any_signature_refuted"
   ],
   "note": "The exact condition is proved; the unconditional claim is refuted (C92_any_signature_refuted)."
  },
  {
   "property": "C93",
   "status": "proved",
   "theorems": [
    "C93_construction",
    "C93_rvalues",
    "C93_construction_exact",
    "C93_arg",
    "C93_matchers",
    "C93_construction_refuted",
    "C93_finalizers",
    "C93_result_of_exact",
    "C93_result_of_refuted",
    "C93_side_effects",
    "C93_side_effects_exact",
    "C93_invoke",
    "C93_invoke_refuted",
    "C93_predicate"
   ],
   "note": "Exact conditions are proved; the unconditional claims are refuted (C93_construction_refuted, C93_result_of_refuted, C93_invoke_refuted)."
  },
  {
   "property": "C94",
   "status": "proved",
   "theorems": [
    "C94_forwarding",
    "C94_lvalues_kept_refuted",
    "C94_elements",
    "C94_const_operands",
    "C94_variables"
   ],
   "note": "Proved for all factories but the two element matchers, for which it is refuted (C94_lvalues_kept_refuted, C94_elements)."
  },
  {
   "property": "C95",
   "status": "proved",
   "theorems": [
    "C95_policies",
    "C95_finalizers",
    "C95_resolution",
    "C95_builder_category",
    "C95_effect",
    "C95_body",
    "C95_ambiguous",
    "C95_policy_operand",
    "C95_finalizer_operand",
    "C95_order_matters_refuted",
    "C95_configurations",
    "C95_named_operands",
    "C95_not_accepted",
    "C95_results",
    "C95_finalize",
    "C95_scoped_trait_refuted",
    "C95_scoped",
    "C95_library",
    "C95_named_clauses",
    "C95_library_members",
    "C95_library_shape",
    "C95_library_movable",
    "C95_library_expressions",
    "C95_immovable_results"
   ],
   "note": "Resolution is proved exact for all operand types; independence of the order of operands is refuted for types which are policies and finalizers (C95_order_matters_refuted), the trait is_constructible<ScopedExpectation, Builder> by C95_scoped_trait_refuted."
  },
  {
   "property": "C96",
   "status": "proved",
   "theorems": [
    "C96_supported",
    "C96_disabled",
    "C96_exactly",
    "C96_operand",
    "C96_program",
    "C96_elements_refuted",
    "C96_elements"
   ],
   "note": "Full support is refuted for element matchers (C96_elements_refuted); C96_exactly characterises which types are matchers and who answers."
  },
  {
   "property": "C97",
   "status": "proved",
   "theorems": [
    "C97_conservative",
    "C97_world",
    "C97_every_program",
    "C97_limits",
    "C97_applicable_iff_history",
    "C97_sequence_lifetime",
    "C97_sequence_error_iff",
    "C97_finalize_stages",
    "C97_failed_finalize_uses_up",
    "C97_half_built_blocks",
    "C97_half_built_complains",
    "C97_extension_terminates",
    "C97_expect_call_terminates",
    "C97_failed_move",
    "C97_failed_assignment",
    "C97_failed_self_assignment",
    "C97_assignment_fails_at",
    "C97_operands",
    "C97_untouched",
    "C97_failures_count_nothing",
    "C97_old_or_new_refuted",
    "C97_strong_guarantee_refuted"
   ],
   "note": "The strong guarantee for moves and 'old or new value' for assignments are refuted by witnesses; C97_failed_move and C97_failed_assignment say what is left instead. The part whose move throws is taken to keep its value."
  },
  {
   "property": "C98",
   "status": "proved",
   "theorems": [
    "C98_failed_construction_terminates",
    "C98_failed_construction",
    "C98_failed_copy_terminates",
    "C98_failed_copy",
    "C98_watchers_first",
    "C98_which_failures_exist",
    "C98_failed_assignment",
    "C98_failed_assignment_completes",
    "C98_failed_copy_assignment",
    "C98_failed_move_assignment",
    "C98_failed_move_terminates",
    "C98_failed_move_uses_up",
    "C98_failed_destruction_terminates",
    "C98_failed_destruction",
    "C98_failed_silent_destruction",
    "C98_failed_destruction_order",
    "C98_failed_move_completes",
    "C98_failed_move_of_moved_from",
    "C98_failed_move_by_copy",
    "C98_failed_relocation",
    "C98_failed_relocation_of_watched",
    "C98_failed_move_keeps_object_refuted",
    "C98_failed_move_assignment_keeps_objects_refuted",
    "C98_failed_relocation_keeps_object_refuted",
    "C98_failed_construction_is_seen_refuted"
   ],
   "note": "The strong guarantees of moves and assignments and the visibility of exceptions of constructors are refuted by witnesses; the other theorems say what happens instead."
  },
  {
   "property": "C99",
   "status": "proved",
   "theorems": [
    "C99_counted_calls_were_accepted",
    "C99_count_is_exact",
    "C99_limit_with_asserts",
    "C99_sequences_in_order",
    "C99_one_thread_at_a_time",
    "C99_visited_are_alive",
    "C99_blocked_waits_for_a_visit",
    "C99_waits_only_if_needed",
    "C99_uninterrupted_visits_are_one_step",
    "C99_one_step_by_visits",
    "C99_all_coarse_executions",
    "C99_chosen_was_open",
    "C99_failed_were_closed",
    "C99_without_sequences_one_moment",
    "C99_without_sequences_failure",
    "C99_counted_only_if_open",
    "C99_undisturbed",
    "C99_one_moment_refuted"
   ],
   "note": "That a call with sequences takes effect at one moment is refuted by a witness; the other theorems say what is true instead."
  },
  {
   "property": "C100",
   "status": "proved",
   "theorems": [
    "C100_events_of_steps",
    "C100_end_of_scope",
    "C100_last_release",
    "C100_ends_of_expectations",
    "C100_releases",
    "C100_new_owners",
    "C100_new_sequences",
    "C100_ends_of_sequences",
    "C100_no_use_after_end",
    "C100_ends_once",
    "C100_ends_are_ordered",
    "C100_later_access_orders",
    "C100_quiet_actions",
    "C100_unguarded_accesses_race",
    "C100_ends_never_race_refuted"
   ],
   "note": "That ends never race with accesses is refuted by a witness; the general theorem says which accesses race."
  },
  {
   "property": "C101",
   "status": "proved",
   "theorems": [
    "C101_events",
    "C101_releases",
    "C101_new_expectations",
    "C101_new_mocks",
    "C101_ends_of_collections",
    "C101_last_release",
    "C101_end_of_scope",
    "C101_end_of_mock",
    "C101_assigned_mock",
    "C101_no_other_releases",
    "C101_no_use_after_end",
    "C101_ends_once",
    "C101_ends_are_ordered",
    "C101_accepted_calls_are_ordered",
    "C101_silent_actions",
    "C101_unfollowed_calls_race",
    "C101_ends_never_race_refuted"
   ],
   "note": "That ends never race with uses is refuted by a witness; the general theorem says which calls race."
  },
  {
   "property": "C102",
   "status": "proved",
   "theorems": [
    "C102_lock",
    "C102_unlock",
    "C102_mutual_exclusion",
    "C102_executions",
    "C102_free_means_settled",
    "C102_like_one_thread",
    "C102_calls",
    "C102_counting_succeeds",
    "C102_limit",
    "C102_operations",
    "C102_faults",
    "C102_mutex_orders",
    "C102_protected_places_never_race",
    "C102_guarded_never_race",
    "C102_guarded_lists_never_race",
    "C102_order",
    "C102_order_of_synchronising",
    "C102_own_mutexes_race_refuted",
    "C102_own_mutexes_refuted",
    "C102_released_between_refuted"
   ],
   "note": "Both weaker disciplines are refuted by witnesses."
  },
  {
   "property": "C103",
   "status": "proved",
   "theorems": [
    "C103_each_thread_as_alone",
    "C103_every_interleaving_possible",
    "C103_next_step_as_alone",
    "C103_schedule_does_not_matter",
    "C103_same_as_one_after_another",
    "C103_history_does_not_matter",
    "C103_whole_program",
    "C103_nothing_in_common",
    "C103_no_races",
    "C103_threads_with_their_own_mocks",
    "C103_endings",
    "C103_seen",
    "C103_counted_calls",
    "C103_same_objects",
    "C103_one_mock_refuted",
    "C103_asking_others_refuted",
    "C103_ending_others_refuted",
    "C103_common_sequence_refuted"
   ],
   "note": "The steps of Conc (C27, C28) are atomic; C103_no_races shows that they do not race under the same conditions. Witnesses show that the conditions on mocks, questions, scope ends and sequences are needed."
  },
  {
   "property": "C104",
   "status": "proved",
   "theorems": [
    "C104_footprint",
    "C104_reporter",
    "C104_footprint_is_touched",
    "C104_frame",
    "C104_locked_objects_never_race",
    "C104_locked_lists_never_race",
    "C104_reporter_never_races",
    "C104_limit",
    "C104_counting_succeeds",
    "C104_asserts_make_no_difference",
    "C104_sequences_in_order",
    "C104_without_sequences_refuted",
    "C104_unlocked_between_refuted",
    "C104_counting_without_sequences_refuted"
   ],
   "note": "Places, events and happens-before are those of Race, Lifetime, Colls and Guarded (C67, C82, C100, C102). The installed reporter is not part of footprints: every operation may read it, and only install_reporter writes it."
  }
 ]
}