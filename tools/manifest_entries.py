c("C01","proved",C01+" C01_no_other_outcome C01_readers static_disciplined C01_memoized memo_disciplined C01_memoized_fib from_scratch_functional ex_disciplined ex_value ex_structural_disciplined ex_readers_ok relaxed_all every_clause_needed",
  "For every program obeying the naming discipline (Discipline.v, clauses S1-S13): the engine returns exactly the from-scratch value, leaves the from-scratch store, and is idle again; never panics. every_clause_needed: dropping any single clause admits a program on which the engine is wrong. C01_readers needs no dynamic discipline hypothesis for a syntactic class of programs (cells + read-only thunks); C01_memoized likewise for a class whose thunks allocate and demand further thunks (memoised functions: the name determines function and arguments), and C01_memoized_fib is its instance for all arguments and all edit histories of a recursive memoised function, with no hypothesis left.")
c("C02","proved","C02_store_agreement","Every location: same kind, type, content.")
c("C03","proved","C03_demand_driven demand_after_history demand_from_scratch_functional ex_demand_disciplined ex_demand ex_demand_runs","The thunks run are among those the from-scratch evaluation of the same demand runs.")
c("C04","proved","C04_at_most_once ex_demand ex_demand_runs C04_memoized_fib","NoDup of the bodies run by one outermost force. C04_memoized_fib: its use for a memoised recursive function, every query is linear after every history.")
c("C05","proved","C05_repeat_demand C05_clean_cache_hit ex_repeat ex_cache_hit","")
c("C06","proved","C06_set_same C06_cell_same C06_thunk_same C06_thunk_same_structural ex_cell_a ex_modes ex_thunk_sum ex_thunk_struct","Unconditional in the engine state; only trace events may be added.")
c("C07","proved","C07_edits_do_not_evaluate C07_set_does_not_evaluate C07_thunk_does_not_evaluate C07_edit_programs_do_not_evaluate ex_no_demand","")
c("C08","proved","C08_set_only_dirties C08_thunk_only_dirties C08_cell_only_dirties C08_cell_over_thunk","All engine states, also ill-formed ones; termination = never OFuel with the computed dirty_fuel.")
c("C09","proved","C09_clean_edges_up_to_date C09_dirty_propagated ex_clean_edges ex_dirty_edges","")
c("C10","proved","C10_edges_symmetric C10_no_self_edges C10_acyclic C01_no_other_outcome","Dangling panics excluded by C01_no_other_outcome.")
c("C11","proved","C11_set_get C11_cell_get ex_set","")
c("C12","proved","C12_art_identity ex_identity","")
c("C13","proved","C13_context_restored C13_force_context","")
c("C14","proved","C14_set_in_thunk_panics","")
c("C15","proved","C15_types_never_change C15_force_checked C15_force_map_checked C15_force_abs_checked C15_set_checked C15_cell_checked C15_thunk_checked C15_force_at_type","Structural thunk allocation does not check the type of an existing location (engine.rs:1660-1683); the type error then surfaces at the force: C15_force_checked.")
c("C16","proved","C16_different_function_panics","")
c("C17","proved","C17_cycle_panics C17_force_cycle_default C17_no_false_cycle C17_cells_are_no_cycles","")
c("C18","proved","C18_force_map_prunes C18_nothing_dirtied","")
c("C19","proved",C01+" C09_clean_edges_up_to_date C19_two_projections_refuted every_clause_needed ex_one_projection C19_projection_then_force_refuted ex_disciplined","Positive part: C01 under clause S5; the two refuted theorems show the clause is needed.")
c("C20","proved",C01+" C20_structural_thunks_refuted every_clause_needed ex_structural_reads_off ex_structural_disciplined","Positive part: C01 with opt = true under S6, and with opt = false where S6 is void.")
c("C21","proved",C01+" C11_cell_get C08_cell_over_thunk C21_cell_over_thunk_refuted every_clause_needed C21_thunk_over_cell_refuted","Positive part: C01 under S2, and C11_cell_get.")
c("C22","proved","C22_never_dirtied C22_force_abs_refuted ex_abs_only","")
c("C23","proved",C01+" C17_no_false_cycle C17_force_cycle_default C23_cycle_values_leak_refuted every_clause_needed","Positive part: C01 under S9 (Discipline ignores the cycle value).")
c("C24","proved","C24_eager_naive_panic C24_other_choices","")
c("C25","proved","C25_equality_is_what_is_seen C25_equal_arts_interchangeable C25_thunk_map_value C25_thunk_map_arts_all_equal C25_equal_arts_differ_refuted ex_same_code ex_same_client","")
c("C26","proved",C01+" C26_structural_mode_leaks_refuted every_clause_needed ex_structural_disciplined","Positive part: C01 under S10, for both base modes.")
c("C27","proved",C01+" C27_read_then_overwrite_refuted every_clause_needed","Positive part: C01 under S1.")
c("C28","proved","C10_no_self_edges C01_no_other_outcome C28_self_allocation_refuted","Positive part under S13.")
c("C29","proved","C29_no_set_after_user_panic C29_panic_poisons_engine_refuted ex_user_panic","Universal: any state, demand, panic point and any later use.")
c("C30","proved","C30_symbol_determines_name C30_injective C30_disjoint C30_fork C30_fork3 C30_fork4 C30_pair_new C30_fork_paths C30_fork_independent C30_fork3_independent C30_fork4_independent","Names are identified with their symbols; hashes of names are assumed collision free (Base.v).")
c("C31","proved","C31_traces_balanced C31_recorder_never_fails","")
c("C32","proved","C32_trace_count C32_debug_extents_refuted","Exact for traces the engine records; Debug extents (never emitted by the engine) would be counted as dirty effects.")
c("C33","proved","C33_same_art C33_same_cell C33_content C33_forever C33_cell_content S8_hash_collision_merges ex_perfect ex_shared","")
c("C34","proved","C34_naive_from_scratch C34_engines_agree C34_data C34_naive_is_immutable ex_writes_once ex_small_disciplined ex_no_spurious","")
c("C35","proved","C35_exchange C35_init_dcg C35_init_naive C35_not_while_running C35_engines_isolated ex_sessions","")
c("C36","proved","C36_pow C36_pow_negative C36_flip C36_flip_sign C36_is_set C36_prepend C36_prepend_value C36_prepend_not_a_bit C36_shift_left C36_max_len C36_bits_roundtrip ex_bits","")
c("C37","proved","C37_map_lazy C37_map_eager C37_map_eager2 C37_filter_lazy C37_filter_eager C37_reverse C37_reverse_elems C37_fold C37_append C37_is_empty C37_pop C37_push_pop C37_vec_roundtrip C37_vec_all C37_vec_limit C37_merge_elems C37_merge_rest C37_merge_permutation C37_merge_sorted C37_merge_stable C37_mergesort C37_mergesort2 C37_mergesort3 ex_tree_of_list","Value level: an articulation is the value that forcing it gives.")
c("C38","proved","C38_tree_of_list C38_list_of_tree C38_roundtrip C38_monoid C38_monoid_shape C38_canonical C38_history_independent C38_eager C38_eager_canonical C38_prune C38_filter_tree C38_filter_tree_names_refuted C38_filter_list C38_is_empty C38_lev_of_tree ex_tree_of_list","Value level, any hash function.")
c("C39","proved","C39_list_gen_empty","")
c("C40","proved","C40_is_name_inverted C40_is_name_refuted","")
c("C41","proved","C41_parse_print C41_terminates C41_structural_art_panics C41_isize_panics C41_float_panics C41_escapes_not_undone C41_backslash_refuted C41_user_constructor_refuted C41_hash64_lost ex_data_ok ex_data_print","print (Parse.v) is the specification of Rust's derived Debug output and of the Debug impls of engine.rs.")
c("C42","proved","C42_mem C42_mem_placement_needed C42_find_sound C42_split_atomic C42_split_atomic_mem C42_split_atomic_other C42_fold C42_is_empty_sound C42_is_empty_refuted C42_empty C42_extend_panics C42_of_list_panics ex_trie_ok ex_split","")
c("C43","proved","C43_check_passes C43_checked_engine C43_checked_demand C43_check_sound C43_check_sound_running C43_checked_before_and_after C43_checked_inside C43_circle_refuted ex_check ex_checked ex_checked_bites ex_checked_bites_inside ex_check_sound","The calls of the check inside the engine are modelled in Watch.v, where the whole engine is run with a test at the places where engine.rs calls it; the positive claim excludes force_cycle (not disciplined): C43_circle_refuted. The DOT file that check_dcg can also write (flag write_dcg) is not modelled.")
c("C44","proved","C17_cycle_panics C17_no_false_cycle C01_no_other_outcome C44_missed_cycle_refuted","")
c("C45","proved","C45_fresh_names C45_not_reserved_refuted","The counter's names are pairwise distinct, but collide with names the client makes with name_of_usize.")
c("C46","proved","C46_unrelated_set ex_unrelated","")
c("C47","proved","C47_trace_shows_evaluations","")
c("C48","proved","C48_find_is_first_binding C48_find_update C48_find_empty C48_fold C48_mem_add C48_mem_empty C48_mem_inter","")
c("C49","proved","C49_sessions denotes_functional ex_session_valid ex_session_results ex_lookups_valid ex_lookups_results","The catalog functions are modelled with their engine calls (Cat.v); F bounds the recursion depth inside one thunk body.")
c("C50","proved","C50_map_same_namespace C50_filter_same_namespace C50_reverse_same_namespace C50_map_lazy_same_namespace C50_filter_lazy_same_namespace C50_others ex_named ex_no_name","The eager and lazy list functions for all lists with a name; tree_of_list and folding on examples (C50_others).")
c("C51","proved","C51_prune_refuted","")
c("C52","proved","C52_resort_refuted","")
c("C53","proved","C53_recording_transparent C53_protocol C53_nested_begin C53_end_without_begin C53_user_panic_disables_recording C53_outer_panic_harmless ex_ran ex_recording_panic","")
c("C54","proved","C54_snapshot_faithful C54_snapshot_shows C54_cell_value C54_thunk_value C54_panics C54_panics_on_structural_art C54_snapshot_edges C54_hash_names_refuted ex_snapshot","The values cached on edges (Succ.value) and is_dup are left out of the snapshot model.")
c("C55","proved","C55_trace_grammar C55_every_node ex_trace_counts ex_demand_recorded","")
c("C56","proved","C56_reason_to_rerun C56_early_cutoff C56_demand_remembers C56_edits_remember ex_cutoff ex_cutoff_runs ex_remembered","")
c("C57","proved","C57_same_outcome C57_panics_exactly_when C57_demand C57_no_stale_answer C57_demand_example C57_program_example","")
c("C58","proved","C58_panicked_thunk_is_lost C58_stale_after_panic_refuted C58_no_recovery_refuted ex_user_panic","")
c("C59","proved","C59_mergesort2_refuted ex_sort2_left","")
c("C60","proved","C60_set_dirties_exactly C60_cell_dirties_exactly C60_thunk_dirties_exactly C60_firewall C60_nominal_firewall C60_firewall_sessions ex_doc_firewall ex_firewall ex_set_a_dirt ex_realloc_hyps","")
c("C61","proved","C61_explores C61_sessions C61_vector C61_doc_example C61_kept_answers_refuted dfs_total doc_closed","C61_explores / C61_sessions: the engine's values and run log for every finite graph. The specification is the search dfs at the head of Cycles.v; C61_vector says it without dfs. C61_kept_answers_refuted: the last sentence of the property, on the documentation's graph.")
c("C62","proved","C62_runs_exactly C62_nothing_to_do C62_switching C62_switching_sessions ex_doc_switching ex_runs_exactly","")
c("C63","proved","C63_ident_body_ignored C63_let_memo_body_ignored C63_captured_ignored C63_spurious_ignored C63_text_changed_panics C63_none C63_second_body_gets_first_value C63_captured_variable C63_argument ex_second_use","")
c("C64","proved","C64_map_round C64_sessions C64_one_more C64_edit_cost C64_same_again C64_undo_cost C64_incremental ex_im_hyps ex_im_theorem","each run of elements between two names is shorter than the recursion bound F of the model, which is arbitrary")
c("C65","proved","C65_force_any_namespace C65_ns_of_force force_ignores_namespace ex_any_namespace","")
c("C66","proved","C66_nominal_memo ex_doc_nominal","")
c("C67","proved","C67_fold_round C67_sessions C67_one_more C67_edit_cost C67_same_again C67_incremental C67_log_cost ex_it_hyps ex_it_counts ex_it_engine ex_it_theorem","the recursion bound of the model must exceed the height of the trees")
c("C68","proved","C68_reverse_round C68_sessions C68_one_more C68_edit_cost C68_change_one C68_same_again C68_undo_cost C68_incremental C68_front_is_free reads_fun ex_ir_hyps ex_ir_theorem nu_good","names of the input are API names not of the form rev·k, which list_reverse uses for its own cells; chunks shorter than the recursion bound of the model; ex_ir_counts and ex_ir_engine show the bounds are reached")
c("C69","proved","C69_no_dangling C69_results_live C69_closed C69_nothing_forgotten C69_table_grows C69_cell_for_ever C69_thunk_for_ever C69_other_engine C69_catalog_scoped C69_ex","the privacy of the fields of AbsArt and Loc is the hypothesis scoped: locations known to a program come from the engine")
c("C70","proved","C70_panics_iff_unmatched C70_postfix C70_tokens C70_tokens_value C70_text C70_text_misread C70_numerals_refuted C70_ex C70_ex_misread C70_ex_unmatched","arith_parse.rs is not compiled by the crate (catalog/mod.rs does not list it); modelled from its text, at the value level, on top of the models of tree_fold_seq and tree_of_list (C38). The positive claim about literals holds exactly for those the theorem names: C70_numerals_refuted")
c("C71","proved","C71_atoms C71_names_exact C71_forks C71_locations_exact C71_debug_names C71_debug_arts C71_dot_exact C71_names_refuted C71_locations_refuted C71_dot_refuted ex_printed ex_printed_meets","The documentation calls the concise form human-readable and does not promise injectivity, but it is used for CSS classes of nodes; the positive theorems say exactly when it identifies.")
c("C72","proved","C72_no_duplicate_force C72_observed_once C72_force_records C72_snapshot C72_allocations_refuted C72_projections_refuted ex_dups_no_maps ex_dups_reached ex_force_records ex_snap_dups","Unconditional: any client code, any engine state reached, also with leftover frames after a caught panic. The flag is_dup of a traced force is is_dup of Engine.v (is_dup_observed); the constant false at allocations and force_map is what the two refuted theorems are about.")
