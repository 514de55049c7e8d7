{
 "claims": [
  {
   "property": "C01",
   "status": "proved",
   "theorems": [
    "C01_from_scratch_consistency",
    "C01_no_other_outcome",
    "C01_readers",
    "static_disciplined",
    "C01_memoized",
    "memo_disciplined",
    "C01_memoized_fib",
    "from_scratch_functional",
    "ex_disciplined",
    "ex_value",
    "ex_structural_disciplined",
    "ex_readers_ok",
    "relaxed_all",
    "every_clause_needed"
   ],
   "note": "For every program obeying the naming discipline (Discipline.v, clauses S1-S13): the engine returns exactly the from-scratch value, leaves the from-scratch store, and is idle again; never panics. every_clause_needed: dropping any single clause admits a program on which the engine is wrong. C01_readers needs no dynamic discipline hypothesis for a syntactic class of programs (cells + read-only thunks); C01_memoized likewise for a class whose thunks allocate and demand further thunks (memoised functions: the name determines function and arguments), and C01_memoized_fib is its instance for all arguments and all edit histories of a recursive memoised function, with no hypothesis left."
  },
  {
   "property": "C02",
   "status": "proved",
   "theorems": [
    "C02_store_agreement"
   ],
   "note": "Every location: same kind, type, content."
  },
  {
   "property": "C03",
   "status": "proved",
   "theorems": [
    "C03_demand_driven",
    "demand_after_history",
    "demand_from_scratch_functional",
    "ex_demand_disciplined",
    "ex_demand",
    "ex_demand_runs"
   ],
   "note": "The thunks run are among those the from-scratch evaluation of the same demand runs."
  },
  {
   "property": "C04",
   "status": "proved",
   "theorems": [
    "C04_at_most_once",
    "ex_demand",
    "ex_demand_runs",
    "C04_memoized_fib"
   ],
   "note": "NoDup of the bodies run by one outermost force. C04_memoized_fib: its use for a memoised recursive function, every query is linear after every history."
  },
  {
   "property": "C05",
   "status": "proved",
   "theorems": [
    "C05_repeat_demand",
    "C05_clean_cache_hit",
    "ex_repeat",
    "ex_cache_hit"
   ],
   "note": ""
  },
  {
   "property": "C06",
   "status": "proved",
   "theorems": [
    "C06_set_same",
    "C06_cell_same",
    "C06_thunk_same",
    "C06_thunk_same_structural",
    "ex_cell_a",
    "ex_modes",
    "ex_thunk_sum",
    "ex_thunk_struct"
   ],
   "note": "Unconditional in the engine state; only trace events may be added."
  },
  {
   "property": "C07",
   "status": "proved",
   "theorems": [
    "C07_edits_do_not_evaluate",
    "C07_set_does_not_evaluate",
    "C07_thunk_does_not_evaluate",
    "C07_edit_programs_do_not_evaluate",
    "ex_no_demand"
   ],
   "note": ""
  },
  {
   "property": "C08",
   "status": "proved",
   "theorems": [
    "C08_set_only_dirties",
    "C08_thunk_only_dirties",
    "C08_cell_only_dirties",
    "C08_cell_over_thunk"
   ],
   "note": "All engine states, also ill-formed ones; termination = never OFuel with the computed dirty_fuel."
  },
  {
   "property": "C09",
   "status": "proved",
   "theorems": [
    "C09_clean_edges_up_to_date",
    "C09_dirty_propagated",
    "ex_clean_edges",
    "ex_dirty_edges"
   ],
   "note": ""
  },
  {
   "property": "C10",
   "status": "proved",
   "theorems": [
    "C10_edges_symmetric",
    "C10_no_self_edges",
    "C10_acyclic",
    "C01_no_other_outcome"
   ],
   "note": "Dangling panics excluded by C01_no_other_outcome."
  },
  {
   "property": "C11",
   "status": "proved",
   "theorems": [
    "C11_set_get",
    "C11_cell_get",
    "ex_set"
   ],
   "note": ""
  },
  {
   "property": "C12",
   "status": "proved",
   "theorems": [
    "C12_art_identity",
    "ex_identity"
   ],
   "note": ""
  },
  {
   "property": "C13",
   "status": "proved",
   "theorems": [
    "C13_context_restored",
    "C13_force_context"
   ],
   "note": ""
  },
  {
   "property": "C14",
   "status": "proved",
   "theorems": [
    "C14_set_in_thunk_panics"
   ],
   "note": ""
  },
  {
   "property": "C15",
   "status": "proved",
   "theorems": [
    "C15_types_never_change",
    "C15_force_checked",
    "C15_force_map_checked",
    "C15_force_abs_checked",
    "C15_set_checked",
    "C15_cell_checked",
    "C15_thunk_checked",
    "C15_force_at_type"
   ],
   "note": "Structural thunk allocation does not check the type of an existing location (engine.rs:1660-1683); the type error then surfaces at the force: C15_force_checked."
  },
  {
   "property": "C16",
   "status": "proved",
   "theorems": [
    "C16_different_function_panics"
   ],
   "note": ""
  },
  {
   "property": "C17",
   "status": "proved",
   "theorems": [
    "C17_cycle_panics",
    "C17_force_cycle_default",
    "C17_no_false_cycle",
    "C17_cells_are_no_cycles"
   ],
   "note": ""
  },
  {
   "property": "C18",
   "status": "proved",
   "theorems": [
    "C18_force_map_prunes",
    "C18_nothing_dirtied"
   ],
   "note": ""
  },
  {
   "property": "C19",
   "status": "proved",
   "theorems": [
    "C01_from_scratch_consistency",
    "C09_clean_edges_up_to_date",
    "C19_two_projections_refuted",
    "every_clause_needed",
    "ex_one_projection",
    "C19_projection_then_force_refuted",
    "ex_disciplined"
   ],
   "note": "Positive part: C01 under clause S5; the two refuted theorems show the clause is needed."
  },
  {
   "property": "C20",
   "status": "proved",
   "theorems": [
    "C01_from_scratch_consistency",
    "C20_structural_thunks_refuted",
    "every_clause_needed",
    "ex_structural_reads_off",
    "ex_structural_disciplined"
   ],
   "note": "Positive part: C01 with opt = true under S6, and with opt = false where S6 is void."
  },
  {
   "property": "C21",
   "status": "proved",
   "theorems": [
    "C01_from_scratch_consistency",
    "C11_cell_get",
    "C08_cell_over_thunk",
    "C21_cell_over_thunk_refuted",
    "every_clause_needed",
    "C21_thunk_over_cell_refuted"
   ],
   "note": "Positive part: C01 under S2, and C11_cell_get."
  },
  {
   "property": "C22",
   "status": "proved",
   "theorems": [
    "C22_never_dirtied",
    "C22_force_abs_refuted",
    "ex_abs_only"
   ],
   "note": ""
  },
  {
   "property": "C23",
   "status": "proved",
   "theorems": [
    "C01_from_scratch_consistency",
    "C17_no_false_cycle",
    "C17_force_cycle_default",
    "C23_cycle_values_leak_refuted",
    "every_clause_needed"
   ],
   "note": "Positive part: C01 under S9 (Discipline ignores the cycle value)."
  },
  {
   "property": "C24",
   "status": "proved",
   "theorems": [
    "C24_eager_naive_panic",
    "C24_other_choices"
   ],
   "note": ""
  },
  {
   "property": "C25",
   "status": "proved",
   "theorems": [
    "C25_equality_is_what_is_seen",
    "C25_equal_arts_interchangeable",
    "C25_thunk_map_value",
    "C25_thunk_map_arts_all_equal",
    "C25_equal_arts_differ_refuted",
    "ex_same_code",
    "ex_same_client"
   ],
   "note": ""
  },
  {
   "property": "C26",
   "status": "proved",
   "theorems": [
    "C01_from_scratch_consistency",
    "C26_structural_mode_leaks_refuted",
    "every_clause_needed",
    "ex_structural_disciplined"
   ],
   "note": "Positive part: C01 under S10, for both base modes."
  },
  {
   "property": "C27",
   "status": "proved",
   "theorems": [
    "C01_from_scratch_consistency",
    "C27_read_then_overwrite_refuted",
    "every_clause_needed"
   ],
   "note": "Positive part: C01 under S1."
  },
  {
   "property": "C28",
   "status": "proved",
   "theorems": [
    "C10_no_self_edges",
    "C01_no_other_outcome",
    "C28_self_allocation_refuted"
   ],
   "note": "Positive part under S13."
  },
  {
   "property": "C29",
   "status": "proved",
   "theorems": [
    "C29_no_set_after_user_panic",
    "C29_panic_poisons_engine_refuted",
    "ex_user_panic"
   ],
   "note": "Universal: any state, demand, panic point and any later use."
  },
  {
   "property": "C30",
   "status": "proved",
   "theorems": [
    "C30_symbol_determines_name",
    "C30_injective",
    "C30_disjoint",
    "C30_fork",
    "C30_fork3",
    "C30_fork4",
    "C30_pair_new",
    "C30_fork_paths",
    "C30_fork_independent",
    "C30_fork3_independent",
    "C30_fork4_independent"
   ],
   "note": "Names are identified with their symbols; hashes of names are assumed collision free (Base.v)."
  },
  {
   "property": "C31",
   "status": "proved",
   "theorems": [
    "C31_traces_balanced",
    "C31_recorder_never_fails"
   ],
   "note": ""
  },
  {
   "property": "C32",
   "status": "proved",
   "theorems": [
    "C32_trace_count",
    "C32_debug_extents_refuted"
   ],
   "note": "Exact for traces the engine records; Debug extents (never emitted by the engine) would be counted as dirty effects."
  },
  {
   "property": "C33",
   "status": "proved",
   "theorems": [
    "C33_same_art",
    "C33_same_cell",
    "C33_content",
    "C33_forever",
    "C33_cell_content",
    "S8_hash_collision_merges",
    "ex_perfect",
    "ex_shared"
   ],
   "note": ""
  },
  {
   "property": "C34",
   "status": "proved",
   "theorems": [
    "C34_naive_from_scratch",
    "C34_engines_agree",
    "C34_data",
    "C34_naive_is_immutable",
    "ex_writes_once",
    "ex_small_disciplined",
    "ex_no_spurious"
   ],
   "note": ""
  },
  {
   "property": "C35",
   "status": "proved",
   "theorems": [
    "C35_exchange",
    "C35_init_dcg",
    "C35_init_naive",
    "C35_not_while_running",
    "C35_engines_isolated",
    "ex_sessions"
   ],
   "note": ""
  },
  {
   "property": "C36",
   "status": "proved",
   "theorems": [
    "C36_pow",
    "C36_pow_negative",
    "C36_flip",
    "C36_flip_sign",
    "C36_is_set",
    "C36_prepend",
    "C36_prepend_value",
    "C36_prepend_not_a_bit",
    "C36_shift_left",
    "C36_max_len",
    "C36_bits_roundtrip",
    "ex_bits"
   ],
   "note": ""
  },
  {
   "property": "C37",
   "status": "proved",
   "theorems": [
    "C37_map_lazy",
    "C37_map_eager",
    "C37_map_eager2",
    "C37_filter_lazy",
    "C37_filter_eager",
    "C37_reverse",
    "C37_reverse_elems",
    "C37_fold",
    "C37_append",
    "C37_is_empty",
    "C37_pop",
    "C37_push_pop",
    "C37_vec_roundtrip",
    "C37_vec_all",
    "C37_vec_limit",
    "C37_merge_elems",
    "C37_merge_rest",
    "C37_merge_permutation",
    "C37_merge_sorted",
    "C37_merge_stable",
    "C37_mergesort",
    "C37_mergesort2",
    "C37_mergesort3",
    "ex_tree_of_list"
   ],
   "note": "Value level: an articulation is the value that forcing it gives."
  },
  {
   "property": "C38",
   "status": "proved",
   "theorems": [
    "C38_tree_of_list",
    "C38_list_of_tree",
    "C38_roundtrip",
    "C38_monoid",
    "C38_monoid_shape",
    "C38_canonical",
    "C38_history_independent",
    "C38_eager",
    "C38_eager_canonical",
    "C38_prune",
    "C38_filter_tree",
    "C38_filter_tree_names_refuted",
    "C38_filter_list",
    "C38_is_empty",
    "C38_lev_of_tree",
    "ex_tree_of_list"
   ],
   "note": "Value level, any hash function."
  },
  {
   "property": "C39",
   "status": "proved",
   "theorems": [
    "C39_list_gen_empty"
   ],
   "note": ""
  },
  {
   "property": "C40",
   "status": "proved",
   "theorems": [
    "C40_is_name_inverted",
    "C40_is_name_refuted"
   ],
   "note": ""
  },
  {
   "property": "C41",
   "status": "proved",
   "theorems": [
    "C41_parse_print",
    "C41_terminates",
    "C41_structural_art_panics",
    "C41_isize_panics",
    "C41_float_panics",
    "C41_escapes_not_undone",
    "C41_backslash_refuted",
    "C41_user_constructor_refuted",
    "C41_hash64_lost",
    "ex_data_ok",
    "ex_data_print"
   ],
   "note": "print (Parse.v) is the specification of Rust's derived Debug output and of the Debug impls of engine.rs."
  },
  {
   "property": "C42",
   "status": "proved",
   "theorems": [
    "C42_mem",
    "C42_mem_placement_needed",
    "C42_find_sound",
    "C42_split_atomic",
    "C42_split_atomic_mem",
    "C42_split_atomic_other",
    "C42_fold",
    "C42_is_empty_sound",
    "C42_is_empty_refuted",
    "C42_empty",
    "C42_extend_panics",
    "C42_of_list_panics",
    "ex_trie_ok",
    "ex_split"
   ],
   "note": ""
  },
  {
   "property": "C43",
   "status": "proved",
   "theorems": [
    "C43_check_passes",
    "C43_checked_engine",
    "C43_checked_demand",
    "C43_check_sound",
    "C43_check_sound_running",
    "C43_checked_before_and_after",
    "C43_checked_inside",
    "C43_circle_refuted",
    "ex_check",
    "ex_checked",
    "ex_checked_bites",
    "ex_checked_bites_inside",
    "ex_check_sound"
   ],
   "note": "The calls of the check inside the engine are modelled in Watch.v, where the whole engine is run with a test at the places where engine.rs calls it; the positive claim excludes force_cycle (not disciplined): C43_circle_refuted. The DOT file that check_dcg can also write (flag write_dcg) is not modelled."
  },
  {
   "property": "C44",
   "status": "proved",
   "theorems": [
    "C17_cycle_panics",
    "C17_no_false_cycle",
    "C01_no_other_outcome",
    "C44_missed_cycle_refuted"
   ],
   "note": ""
  },
  {
   "property": "C45",
   "status": "proved",
   "theorems": [
    "C45_fresh_names",
    "C45_not_reserved_refuted"
   ],
   "note": "The counter's names are pairwise distinct, but collide with names the client makes with name_of_usize."
  },
  {
   "property": "C46",
   "status": "proved",
   "theorems": [
    "C46_unrelated_set",
    "ex_unrelated"
   ],
   "note": ""
  },
  {
   "property": "C47",
   "status": "proved",
   "theorems": [
    "C47_trace_shows_evaluations"
   ],
   "note": ""
  },
  {
   "property": "C48",
   "status": "proved",
   "theorems": [
    "C48_find_is_first_binding",
    "C48_find_update",
    "C48_find_empty",
    "C48_fold",
    "C48_mem_add",
    "C48_mem_empty",
    "C48_mem_inter"
   ],
   "note": ""
  },
  {
   "property": "C49",
   "status": "proved",
   "theorems": [
    "C49_sessions",
    "denotes_functional",
    "ex_session_valid",
    "ex_session_results",
    "ex_lookups_valid",
    "ex_lookups_results"
   ],
   "note": "The catalog functions are modelled with their engine calls (Cat.v); F bounds the recursion depth inside one thunk body."
  },
  {
   "property": "C50",
   "status": "proved",
   "theorems": [
    "C50_map_same_namespace",
    "C50_filter_same_namespace",
    "C50_reverse_same_namespace",
    "C50_map_lazy_same_namespace",
    "C50_filter_lazy_same_namespace",
    "C50_others",
    "ex_named",
    "ex_no_name"
   ],
   "note": "The eager and lazy list functions for all lists with a name; tree_of_list and folding on examples (C50_others)."
  },
  {
   "property": "C51",
   "status": "proved",
   "theorems": [
    "C51_prune_refuted"
   ],
   "note": ""
  },
  {
   "property": "C52",
   "status": "proved",
   "theorems": [
    "C52_resort_refuted"
   ],
   "note": ""
  },
  {
   "property": "C53",
   "status": "proved",
   "theorems": [
    "C53_recording_transparent",
    "C53_protocol",
    "C53_nested_begin",
    "C53_end_without_begin",
    "C53_user_panic_disables_recording",
    "C53_outer_panic_harmless",
    "ex_ran",
    "ex_recording_panic"
   ],
   "note": ""
  },
  {
   "property": "C54",
   "status": "proved",
   "theorems": [
    "C54_snapshot_faithful",
    "C54_snapshot_shows",
    "C54_cell_value",
    "C54_thunk_value",
    "C54_panics",
    "C54_panics_on_structural_art",
    "C54_snapshot_edges",
    "C54_hash_names_refuted",
    "ex_snapshot"
   ],
   "note": "The values cached on edges (Succ.value) and is_dup are left out of the snapshot model."
  },
  {
   "property": "C55",
   "status": "proved",
   "theorems": [
    "C55_trace_grammar",
    "C55_every_node",
    "ex_trace_counts",
    "ex_demand_recorded"
   ],
   "note": ""
  },
  {
   "property": "C56",
   "status": "proved",
   "theorems": [
    "C56_reason_to_rerun",
    "C56_early_cutoff",
    "C56_demand_remembers",
    "C56_edits_remember",
    "ex_cutoff",
    "ex_cutoff_runs",
    "ex_remembered"
   ],
   "note": ""
  },
  {
   "property": "C57",
   "status": "proved",
   "theorems": [
    "C57_same_outcome",
    "C57_panics_exactly_when",
    "C57_demand",
    "C57_no_stale_answer",
    "C57_demand_example",
    "C57_program_example"
   ],
   "note": ""
  },
  {
   "property": "C58",
   "status": "proved",
   "theorems": [
    "C58_panicked_thunk_is_lost",
    "C58_stale_after_panic_refuted",
    "C58_no_recovery_refuted",
    "ex_user_panic"
   ],
   "note": ""
  },
  {
   "property": "C59",
   "status": "proved",
   "theorems": [
    "C59_mergesort2_refuted",
    "ex_sort2_left"
   ],
   "note": ""
  },
  {
   "property": "C60",
   "status": "proved",
   "theorems": [
    "C60_set_dirties_exactly",
    "C60_cell_dirties_exactly",
    "C60_thunk_dirties_exactly",
    "C60_firewall",
    "C60_nominal_firewall",
    "C60_firewall_sessions",
    "ex_doc_firewall",
    "ex_firewall",
    "ex_set_a_dirt",
    "ex_realloc_hyps"
   ],
   "note": ""
  },
  {
   "property": "C61",
   "status": "proved",
   "theorems": [
    "C61_explores",
    "C61_sessions",
    "C61_vector",
    "C61_doc_example",
    "C61_kept_answers_refuted",
    "dfs_total",
    "doc_closed"
   ],
   "note": "C61_explores / C61_sessions: the engine's values and run log for every finite graph. The specification is the search dfs at the head of Cycles.v; C61_vector says it without dfs. C61_kept_answers_refuted: the last sentence of the property, on the documentation's graph."
  },
  {
   "property": "C62",
   "status": "proved",
   "theorems": [
    "C62_runs_exactly",
    "C62_nothing_to_do",
    "C62_switching",
    "C62_switching_sessions",
    "ex_doc_switching",
    "ex_runs_exactly"
   ],
   "note": ""
  },
  {
   "property": "C63",
   "status": "proved",
   "theorems": [
    "C63_ident_body_ignored",
    "C63_let_memo_body_ignored",
    "C63_captured_ignored",
    "C63_spurious_ignored",
    "C63_text_changed_panics",
    "C63_none",
    "C63_second_body_gets_first_value",
    "C63_captured_variable",
    "C63_argument",
    "ex_second_use"
   ],
   "note": ""
  },
  {
   "property": "C64",
   "status": "proved",
   "theorems": [
    "C64_map_round",
    "C64_sessions",
    "C64_one_more",
    "C64_edit_cost",
    "C64_same_again",
    "C64_undo_cost",
    "C64_incremental",
    "ex_im_hyps",
    "ex_im_theorem"
   ],
   "note": "each run of elements between two names is shorter than the recursion bound F of the model, which is arbitrary"
  },
  {
   "property": "C65",
   "status": "proved",
   "theorems": [
    "C65_force_any_namespace",
    "C65_ns_of_force",
    "force_ignores_namespace",
    "ex_any_namespace"
   ],
   "note": ""
  },
  {
   "property": "C66",
   "status": "proved",
   "theorems": [
    "C66_nominal_memo",
    "ex_doc_nominal"
   ],
   "note": ""
  },
  {
   "property": "C67",
   "status": "proved",
   "theorems": [
    "C67_fold_round",
    "C67_sessions",
    "C67_one_more",
    "C67_edit_cost",
    "C67_same_again",
    "C67_incremental",
    "C67_log_cost",
    "ex_it_hyps",
    "ex_it_counts",
    "ex_it_engine",
    "ex_it_theorem"
   ],
   "note": "the recursion bound of the model must exceed the height of the trees"
  },
  {
   "property": "C68",
   "status": "proved",
   "theorems": [
    "C68_reverse_round",
    "C68_sessions",
    "C68_one_more",
    "C68_edit_cost",
    "C68_change_one",
    "C68_same_again",
    "C68_undo_cost",
    "C68_incremental",
    "C68_front_is_free",
    "reads_fun",
    "ex_ir_hyps",
    "ex_ir_theorem",
    "nu_good"
   ],
   "note": "names of the input are API names not of the form rev\u00b7k, which list_reverse uses for its own cells; chunks shorter than the recursion bound of the model; ex_ir_counts and ex_ir_engine show the bounds are reached"
  },
  {
   "property": "C69",
   "status": "proved",
   "theorems": [
    "C69_no_dangling",
    "C69_results_live",
    "C69_closed",
    "C69_nothing_forgotten",
    "C69_table_grows",
    "C69_cell_for_ever",
    "C69_thunk_for_ever",
    "C69_other_engine",
    "C69_catalog_scoped",
    "C69_ex"
   ],
   "note": "the privacy of the fields of AbsArt and Loc is the hypothesis scoped: locations known to a program come from the engine"
  },
  {
   "property": "C70",
   "status": "proved",
   "theorems": [
    "C70_panics_iff_unmatched",
    "C70_postfix",
    "C70_tokens",
    "C70_tokens_value",
    "C70_text",
    "C70_text_misread",
    "C70_numerals_refuted",
    "C70_ex",
    "C70_ex_misread",
    "C70_ex_unmatched"
   ],
   "note": "arith_parse.rs is not compiled by the crate (catalog/mod.rs does not list it); modelled from its text, at the value level, on top of the models of tree_fold_seq and tree_of_list (C38). The positive claim about literals holds exactly for those the theorem names: C70_numerals_refuted"
  },
  {
   "property": "C71",
   "status": "proved",
   "theorems": [
    "C71_atoms",
    "C71_names_exact",
    "C71_forks",
    "C71_locations_exact",
    "C71_debug_names",
    "C71_debug_arts",
    "C71_dot_exact",
    "C71_names_refuted",
    "C71_locations_refuted",
    "C71_dot_refuted",
    "ex_printed",
    "ex_printed_meets"
   ],
   "note": "The documentation calls the concise form human-readable and does not promise injectivity, but it is used for CSS classes of nodes; the positive theorems say exactly when it identifies."
  },
  {
   "property": "C72",
   "status": "proved",
   "theorems": [
    "C72_no_duplicate_force",
    "C72_observed_once",
    "C72_force_records",
    "C72_snapshot",
    "C72_allocations_refuted",
    "C72_projections_refuted",
    "ex_dups_no_maps",
    "ex_dups_reached",
    "ex_force_records",
    "ex_snap_dups"
   ],
   "note": "Unconditional: any client code, any engine state reached, also with leftover frames after a caught panic. The flag is_dup of a traced force is is_dup of Engine.v (is_dup_observed); the constant false at allocations and force_map is what the two refuted theorems are about."
  }
 ]
}