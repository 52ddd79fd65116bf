{
 "claims": [
  {
   "property": "C01",
   "status": "proved",
   "theorems": [
    "C01_offset_scoped",
    "C01_current_restored"
   ],
   "note": ""
  },
  {
   "property": "C02",
   "status": "proved",
   "theorems": [
    "C02_strict_total_order",
    "C02_later_is_greater",
    "C02_uninitialized_least"
   ],
   "note": ""
  },
  {
   "property": "C03",
   "status": "partial",
   "theorems": [
    "C03_edges_agree_partial",
    "C03_parents_visible_while_running_partial",
    "C03_refuted"
   ],
   "note": "Proved for histories in which a self use is only recorded while the cell runs; refuted without that restriction."
  },
  {
   "property": "C04",
   "status": "partial",
   "theorems": [
    "C04_no_cycle_of_length_two_partial",
    "C04_no_mutual_children_partial",
    "C04_refuted"
   ],
   "note": "Same restriction as C03; refuted without it."
  },
  {
   "property": "C05",
   "status": "proved",
   "theorems": [
    "C05_no_empty_edges",
    "C05_removal_exact"
   ],
   "note": ""
  },
  {
   "property": "C06",
   "status": "partial",
   "theorems": [
    "C06_replay_partial",
    "C06_refuted",
    "C06_leftover_child_refuted"
   ],
   "note": "Needs: the skipped run recorded nothing, and no parent of the reused run has become a child. Both conditions are shown necessary."
  },
  {
   "property": "C07",
   "status": "partial",
   "theorems": [
    "C07_rename_partial",
    "C07_superseded_version_refuted"
   ],
   "note": "Edges between current versions are renamed exactly; parents recorded by superseded versions keep the old id (refuted)."
  },
  {
   "property": "C08",
   "status": "proved",
   "theorems": [
    "C08_slice_is_closure",
    "C08_cell_slice_is_closure"
   ],
   "note": "For every graph, and for the cells of a session in terms of execution counters."
  },
  {
   "property": "C09",
   "status": "proved",
   "theorems": [
    "C09_no_future",
    "C09_cells_no_future"
   ],
   "note": "The override exception is exact."
  },
  {
   "property": "C10",
   "status": "partial",
   "theorems": [
    "C10_sorted_partial",
    "C10_executed_cells_strict_partial",
    "C10_seed_order_irrelevant",
    "C10_union",
    "C10_seed_only",
    "C10_refuted"
   ],
   "note": "Strictly increasing only when timestamps are distinct; refuted for unexecuted cells. The rest is proved."
  },
  {
   "property": "C100",
   "status": "partial",
   "theorems": [
    "C100_partial",
    "C100_refuted"
   ],
   "note": "same condition on slices; refuted for calls inside later slices"
  },
  {
   "property": "C101",
   "status": "partial",
   "theorems": [
    "C101_saved_partial",
    "C101_partial",
    "C101_where_partial",
    "C101_refuted"
   ],
   "note": "what is kept for each target is right; where it is recorded is right unless a namespace above has the value; refuted otherwise"
  },
  {
   "property": "C102",
   "status": "partial",
   "theorems": [
    "C102_disjoint_partial",
    "C102_plain_partial",
    "C102_sound_partial",
    "C102_elements_partial",
    "C102_container_partial",
    "C102_nothing_partial",
    "C102_refuted",
    "C102_attribute_refuted"
   ],
   "note": "Exact for variables without elements; sound in general; refuted for containers, which are left out themselves, and for attributes and elements with plain values."
  },
  {
   "property": "C103",
   "status": "partial",
   "theorems": [
    "C103_functions_partial",
    "C103_order_partial",
    "C103_methods_partial",
    "C103_file_refuted",
    "C103_class_refuted",
    "C103_docstring_refuted",
    "C103_inherited_refuted"
   ],
   "note": "Exact for functions in sessions in which nothing raises, imports are seen and single files come before the import; the last declared class's methods; refuted for single files after the import, repeated classes, docstrings and inherited methods."
  },
  {
   "property": "C104",
   "status": "partial",
   "theorems": [
    "C104_bound_partial",
    "C104_dotted_partial",
    "C104_others_partial",
    "C104_modules_partial",
    "C104_found_partial",
    "C104_session_partial",
    "C104_from_refuted",
    "C104_dotted_refuted",
    "C104_renamed_refuted",
    "C104_missing_refuted"
   ],
   "note": "Proved for imports other than dotted ones without alias, and for dotted ones whose package had no symbol; sessions need that the package's own name is not another variable. Refuted: from-imports overwrite the symbol of a variable named like the module; dotted imports after an alias; modules whose __name__ differs."
  },
  {
   "property": "C105",
   "status": "partial",
   "theorems": [
    "C105_value_partial",
    "C105_updated_partial",
    "C105_quiet_partial",
    "C105_cached_partial",
    "C105_length_partial",
    "C105_safe_partial",
    "C105_elements_partial",
    "C105_call_refuted",
    "C105_deleted_refuted",
    "C105_raised_refuted",
    "C105_items_refuted",
    "C105_empty_refuted"
   ],
   "note": "Proved if what is assigned without tracing is visible in the statement's text and no tracked list is empty. Refuted for untraced calls, untraced deletions, statements that raise, changes that keep a list's length; an empty list raises IndexError."
  },
  {
   "property": "C106",
   "status": "partial",
   "theorems": [
    "C106_kind_partial",
    "C106_object_partial",
    "C106_body_partial",
    "C106_def_partial",
    "C106_others_partial",
    "C106_stale_refuted",
    "C106_module_refuted",
    "C106_import_refuted",
    "C106_unknown_refuted"
   ],
   "note": "Kinds and followed bodies agree with the last binding for all histories with the stated conditions; missing (and refuted): functions rebound to other things, names of modules, imports over variables, functions from no variable"
  },
  {
   "property": "C107",
   "status": "partial",
   "theorems": [
    "C107_copy_partial",
    "C107_code_partial",
    "C107_texts",
    "C107_shown_partial",
    "C107_quotes_refuted",
    "C107_percent_refuted",
    "C107_plane_refuted",
    "C107_tags_refuted"
   ],
   "note": "For all slices of simple texts both links copy, and the page shows, the slice's text; missing (and refuted): quotes, percent signs before two digits, characters outside of the basic plane, tags; texts with & are not covered"
  },
  {
   "property": "C108",
   "status": "partial",
   "theorems": [
    "C108_reads_partial",
    "C108_variable_partial",
    "C108_unique_partial",
    "C108_key_refuted",
    "C108_same_refuted",
    "C108_alias_refuted"
   ],
   "note": "For all symbols reached by attributes and integer subscripts; missing (and refuted): string keys, objects first bound in another way"
  },
  {
   "property": "C109",
   "status": "partial",
   "theorems": [
    "C109_attached_partial",
    "C109_detached_partial",
    "C109_agree_partial",
    "C109_flow_on_refuted",
    "C109_detached_refuted",
    "C109_midway_refuted"
   ],
   "note": "Proved over all sessions of runs, switches and debugger requests: edges are unchanged and schedules refused while the debugger is attached and no cell says %flow on; a capture that was on is on again afterwards; edges agree from both ends unless a traced run ends with the capture off. Refuted: %flow on under the debugger, a capture that was off before is on afterwards, %flow off in the middle of a run leaves a stale child edge."
  },
  {
   "property": "C11",
   "status": "partial",
   "theorems": [
    "C11_completes_unless_dangling_partial",
    "C11_backward_sessions_partial",
    "C11_refuted",
    "C11_renamed_parent_refuted"
   ],
   "note": "Always terminates; exact condition for raising; never raises in sessions whose edges point backward; refuted in general."
  },
  {
   "property": "C110",
   "status": "partial",
   "theorems": [
    "C110_assigned_partial",
    "C110_unseen_partial",
    "C110_told_partial",
    "C110_upsert_partial",
    "C110_unknown",
    "C110_new",
    "C110_gone",
    "C110_no_run_partial",
    "C110_refuted"
   ],
   "note": "Proved over all sessions with a counter that only moves forward: the cell named is the one whose run assigned the variable last, under its current id; an upsert is accepted exactly for another object and then attributed to the last run. Before any run no cell is named. Proved in any session: nothing is said of unknown or deleted variables, an upsert of a new one is accepted, of one that does not exist refused. Refuted when the counter is moved back to that of an earlier run. Missing: timestamps of members are merged into one, dependencies of an upsert."
  },
  {
   "property": "C12",
   "status": "partial",
   "theorems": [
    "C12_replay",
    "C12_final_values",
    "C12_cells_rerun_partial",
    "C12_cells_run_once",
    "C12_rerun_refuted",
    "C12_mutual_refuted"
   ],
   "note": "Proved in full for statements or cells whose reads are all recorded, and for tracked notebooks in which no cell runs twice. For tracked cells that run repeatedly it holds when reads are from current executions and no two cells read from each other; both conditions are necessary (refuted otherwise)."
  },
  {
   "property": "C13",
   "status": "proved",
   "theorems": [
    "C13_slice_text",
    "C13_text_exists"
   ],
   "note": "black is an arbitrary partial function."
  },
  {
   "property": "C14",
   "status": "proved",
   "theorems": [
    "C14_redirect",
    "C14_redirect_unique"
   ],
   "note": ""
  },
  {
   "property": "C15",
   "status": "partial",
   "theorems": [
    "C15_registry_partial",
    "C15_counter_monotone_partial",
    "C15_refuted"
   ],
   "note": "Refinement to an execution log when counter fix-ups move forward; refuted for fix-ups that go backwards."
  },
  {
   "property": "C16",
   "status": "partial",
   "theorems": [
    "C16_reported_found",
    "C16_nobody_elsewhere",
    "C16_removed_cell_is_last",
    "C16_unreported",
    "C16_neighbour",
    "C16_iteration_partial",
    "C16_iteration_after_check",
    "C16_iteration_refuted",
    "C16_override_restores",
    "C16_override_effect"
   ],
   "note": "Lookup, neighbours, restore and visibility of the override are proved for all reports and programs. Iteration in position order visits only cells already indexed before the report (proved); the full claim is refuted: new cells are missing after their first report, a removed cell is visited after the next check, and with any-order flow the reverse index is stale."
  },
  {
   "property": "C17",
   "status": "proved",
   "theorems": [
    "C17_waiting_least",
    "C17_waiting_iff_behind_ready",
    "C17_order_irrelevant",
    "C17_terminates"
   ],
   "note": "compute = the modelled part of compute_frontend_checker_result; 'registered': parents of registered cells are registered; 'distinct_positions': distinct parents have distinct positions (only for in-order flow). needs_run is the independent description of C48."
  },
  {
   "property": "C18",
   "status": "proved",
   "theorems": [
    "C18_progress",
    "C18_waiting_cell_has_ready_ancestor",
    "C18_in_order_never_cyclic",
    "C18_cycle_deadlocks"
   ],
   "note": "Acyclicity is needed: C18_cycle_deadlocks exhibits a two-cell cycle with nothing ready."
  },
  {
   "property": "C19",
   "status": "partial",
   "theorems": [
    "C19_sets_consistent_partial",
    "C19_new_ready_exact",
    "C19_forced_exact",
    "C19_sent_ready_and_waiting_refuted"
   ],
   "note": "All clauses hold of the checker result. False of the message that is sent: a cell that fails the type check is sent as waiting and can be sent as ready too (C19_sent_ready_and_waiting_refuted)."
  },
  {
   "property": "C20",
   "status": "partial",
   "theorems": [
    "C20_links_exact_partial",
    "C20_links_exact_in_order",
    "C20_links_sound",
    "C20_links_refuted"
   ],
   "note": "Exact with in-order flow and whenever no waiting cell is its own ready-maker; always sound, inverse and terminating. Refuted in general: the change test compares set sizes, so a pass that removes the cell itself and adds one new element is taken for no change."
  },
  {
   "property": "C21",
   "status": "proved",
   "theorems": [
    "C21_parents_children_inverse",
    "C21_parents_are_dependencies"
   ],
   "note": ""
  },
  {
   "property": "C22",
   "status": "proved",
   "theorems": [
    "C22_in_order"
   ],
   "note": "'Lowest parent' is stated per symbol version: the reported parent is the lowest source of some used symbol."
  },
  {
   "property": "C23",
   "status": "partial",
   "theorems": [
    "C23_terminates",
    "C23_updated_exact",
    "C23_never_marks",
    "C23_only_affected",
    "C23_all_dependents_partial",
    "C23_namespaces",
    "C23_flat_exact",
    "C23_through_rhs_refuted",
    "C23_import_refuted",
    "C23_order_refuted"
   ],
   "note": "Termination on every graph, exactness of the updated set, never marking updated/right-hand-side/opted-out symbols, marking only what the change touches, and marking every dependent whose chain avoids the right-hand side are proved for all worlds; exact in worlds without namespaces. Refuted as stated: dependents reached only through the right-hand side, dependents of rebound imports, and marks that depend on iteration order."
  },
  {
   "property": "C24",
   "status": "partial",
   "theorems": [
    "C24_symmetric",
    "C24_no_self",
    "C24_no_ghosts",
    "C24_overwrite_exact_partial",
    "C24_overwrite_refuted",
    "C24_update_bounds",
    "C24_mutate_adds",
    "C24_others_untouched",
    "C24_collect"
   ],
   "note": "Symmetry, no self edges, mutating updates only add, frame and collection proved for every history. 'Overwriting leaves exactly the new dependencies' is false when a new dependency itself depends on the symbol or is the symbol (refuted, with witness); proved otherwise."
  },
  {
   "property": "C25",
   "status": "proved",
   "theorems": [
    "C25_direct",
    "C25_exact",
    "C25_inverse"
   ],
   "note": "deps/users are the direct neighbours; rdeps/rusers complete on every graph including cyclic ones and are exactly the one-or-more-step closures; they are inverse of each other for symbols still in use."
  },
  {
   "property": "C26",
   "status": "partial",
   "theorems": [
    "C26_sound_partial",
    "C26_blocks_refuted",
    "C26_expressions_refuted",
    "C26_definitions_refuted",
    "C26_targets_refuted"
   ],
   "note": "Soundness for all cells in 'fine' and all paths; refuted for blocks that may end early, several expressions, definitions and targets"
  },
  {
   "property": "C27",
   "status": "partial",
   "theorems": [
    "C27_ends_partial",
    "C27_recursion_refuted",
    "C27_mutual_refuted",
    "C27_kwonly_refuted"
   ],
   "note": "Termination for all cells without recursive calls and keyword-only parameters; refuted for recursive and mutually recursive functions (the guard set is never filled) and for keyword-only parameters"
  },
  {
   "property": "C28",
   "status": "partial",
   "theorems": [
    "C28_reuse_sound_partial",
    "C28_equal_inputs",
    "C28_same_inputs_found",
    "C28_outputs_restored",
    "C28_type_refuted",
    "C28_bytearray_refuted",
    "C28_prefix_refuted",
    "C28_own_input_refuted",
    "C28_output_refuted"
   ],
   "note": "Proved for the modelled values: a reused run has the same text, is earlier, did not raise, and each recorded input is unchanged (similar value, or no comparable and unchanged by timestamp). Exact equality for ints, texts and lists of them. Refuted: list vs tuple, dict vs list of pairs, True vs 1; mutated bytearray; list that starts with an array; an input the cell itself overwrites; outputs mutated since."
  },
  {
   "property": "C29",
   "status": "partial",
   "theorems": [
    "C29_mirrors_partial",
    "C29_covers_partial",
    "C29_appends_partial",
    "C29_follows",
    "C29_raises",
    "C29_list",
    "C29_bare_pop_refuted",
    "C29_stale_symbol_refuted",
    "C29_insert_negative_refuted",
    "C29_pop_negative_refuted",
    "C29_insert_beyond_refuted",
    "C29_insert_starred_refuted",
    "C29_two_calls_refuted",
    "C29_nested_call_refuted"
   ],
   "note": "Proved for every sequence of calls, one in a statement, with positions from 0 (or -1 for pop and del) and without bare pop(); with pop() every element still has its own symbol; and for statements with any number of append and extend calls, in whatever order their arguments are evaluated. Refuted for pop(), other negative positions, insert beyond the end, starred arguments, and several other calls in a statement."
  },
  {
   "property": "C30",
   "status": "partial",
   "theorems": [
    "C30_match_partial",
    "C30_empty_star_refuted",
    "C30_unpack_partial",
    "C30_lost_star_refuted",
    "C30_untracked_refuted",
    "C30_dict_refuted",
    "C30_literal_partial",
    "C30_two_stars_refuted",
    "C30_dict_literal_partial",
    "C30_dict_literal_refuted"
   ],
   "note": "The matching is right exactly if the starred part gets an element or is the last one; then unpacking of tracked containers (nested to any depth) and literals are recorded element by element. Refuted for empty starred targets, elements without a symbol under a nested target, dicts on the right-hand side, two starred parts, repeated keys and ** in dict literals."
  },
  {
   "property": "C31",
   "status": "partial",
   "theorems": [
    "C31_answered_partial",
    "C31_default_comm",
    "C31_unknown",
    "C31_no_response",
    "C31_register",
    "C31_register_request",
    "C31_handler_stays",
    "C31_at_most_once",
    "C31_dropped_refuted",
    "C31_unsendable_refuted",
    "C31_untyped_refuted",
    "C31_type_refuted"
   ],
   "note": "A request of a registered type gets exactly one response; unknown types, NO_RESPONSE, refused registrations. Refuted: schedule requests while a debounced schedule is pending; responses that cannot be sent; requests without a type; notifications are answered with the type of a schedule."
  },
  {
   "property": "C32",
   "status": "partial",
   "theorems": [
    "C32_atomic_partial",
    "C32_syntax_error",
    "C32_torn_refuted",
    "C32_active_cleared"
   ],
   "note": "Atomic per cell when nothing but SyntaxError is raised; the active cell is cleared on every path. Refuted: any other exception leaves a cell with new text and old check result, and blocks the cells after it."
  },
  {
   "property": "C33",
   "status": "partial",
   "theorems": [
    "C33_matching_partial",
    "C33_injective",
    "C33_override_refuted",
    "C33_override"
   ],
   "note": "The k-th new cell with a text gets the k-th oldest placeholder with it; injective. Missing: positions are distinct; new cells with overridden references make every request fail (refuted)."
  },
  {
   "property": "C34",
   "status": "partial",
   "theorems": [
    "C34_legal_partial",
    "C34_highlights_refuted",
    "C34_interface_refuted",
    "C34_set",
    "C34_frame",
    "C34_warned",
    "C34_mode",
    "C34_case",
    "C34_case_refuted",
    "C34_redirect",
    "C34_toggle",
    "C34_toggle_once",
    "C34_incremental_partial",
    "C34_incremental_refuted",
    "C34_initialize_refuted",
    "C34_initialize_ignored_refuted",
    "C34_switch",
    "C34_flags",
    "C34_construct_partial",
    "C34_initialize_partial"
   ],
   "note": "Proved for all command strings and histories: legal values, documented values are set, other settings are left alone, warnings change nothing, case and redirections do not matter where they should not, toggling twice restores, switches do what they say, documented values given to the constructor (except the interface) or to an initialisation for another interface are taken. Refuted: raw highlights in the constructor, the constructor's interface is ignored, the schedule's value in upper case, incremental reactivity with the DAG schedule chosen afterwards or at initialisation."
  },
  {
   "property": "C35",
   "status": "partial",
   "theorems": [
    "C35_exact_partial",
    "C35_found_partial",
    "C35_only_given",
    "C35_inherit_partial",
    "C35_total_partial",
    "C35_reactive_partial",
    "C35_forced_partial",
    "C35_remove_refuted",
    "C35_rename_refuted",
    "C35_twice_refuted",
    "C35_replace_refuted",
    "C35_old_version_refuted",
    "C35_counter_refuted",
    "C35_reactive_refuted"
   ],
   "note": "Exact for all histories in which tags are only added to current cells, tagged cells keep their ids and counters grow; every current tagged cell is found whenever counters grow; nothing is returned that never carried the tag; marks for reactive tags exact. Refuted: removal, renaming, replacing, tagging an old version, counters taken back."
  },
  {
   "property": "C36",
   "status": "partial",
   "theorems": [
    "C36_push_exact",
    "C36_terminates_partial",
    "C36_terminates_refuted",
    "C36_pull_sound",
    "C36_pull_needed",
    "C36_pull_complete",
    "C36_pull_order_refuted",
    "C36_pull_unlisted_refuted",
    "C36_cousins_partial",
    "C36_cousins_refuted",
    "C36_order",
    "C36_highlight"
   ],
   "note": "Backward closures and push-only closures are exactly the reachable cells, duplicate-free and terminating on any graph; the shown slice is exactly the backward closure of what would run; lists follow notebook order. In pull mode: sound, complete for outdated and stale ancestors, only needed cells pulled. Refuted: pull mode does not end on circular parents; the result depends on the order of the parents; a never-run cell without a parents row is missed; with a repeated start cell, cousins are missed."
  },
  {
   "property": "C37",
   "status": "partial",
   "theorems": [
    "C37_order",
    "C37_run_order_partial",
    "C37_terminates",
    "C37_run_order_refuted"
   ],
   "note": "The topological order lists every code cell once, after all it depends on through notebook code cells; run lists follow it; it terminates on cyclic graphs. Refuted when the dependency passes through a cell no longer in the notebook."
  },
  {
   "property": "C38",
   "status": "partial",
   "theorems": [
    "C38_once",
    "C38_ends",
    "C38_lazy_refuted",
    "C38_incremental_partial",
    "C38_incremental_refuted",
    "C38_error_ends",
    "C38_closed_clear"
   ],
   "note": "Batch reactive mode: no cell twice, ends after at most as many submissions as cells. Incremental mode: the same if the kernel names the submitted cell as last executed. Refuted: lazy batch mode submits a cell twice that is forced both plainly and cascading; incremental mode resubmits for ever if another cell is named."
  },
  {
   "property": "C39",
   "status": "partial",
   "theorems": [
    "C39_passing_partial",
    "C39_raises",
    "C39_once_refuted",
    "C39_endless_refuted",
    "C39_grows_partial",
    "C39_grows_refuted",
    "C39_forbidden",
    "C39_enters_partial",
    "C39_loop_refuted",
    "C39_stale_refuted"
   ],
   "note": "Exact for all lists and predicates that neither raise nor change the list, and what happens when one raises; the debugger is entered exactly when a watchpoint of an updated symbol holds. Refuted: predicates that change the list (skipping, endless loop), growth through methods inherited from list, statements executed again in a loop, watchpoints left active after a predicate raised."
  },
  {
   "property": "C40",
   "status": "proved",
   "theorems": [
    "C40_types",
    "C40_not_caught",
    "C40_rest",
    "C40_unchanged",
    "C40_once"
   ],
   "note": "For all hierarchies of exception types, clauses and histories of interrupts."
  },
  {
   "property": "C41",
   "status": "partial",
   "theorems": [
    "C41_cell_partial",
    "C41_history_partial",
    "C41_leave_twice",
    "C41_captured_partial",
    "C41_thread_refuted",
    "C41_nested_refuted",
    "C41_nested_lost_refuted",
    "C41_replaced_refuted",
    "C41_endless_refuted",
    "C41_captured_refuted"
   ],
   "note": "Proved for captures that are not nested, main-thread output and streams that the user did not replace; refuted for the rest."
  },
  {
   "property": "C42",
   "status": "partial",
   "theorems": [
    "C42_superseded",
    "C42_delay",
    "C42_at_most_once",
    "C42_not_lost",
    "C42_comes_to_rest",
    "C42_burst",
    "C42_late_refuted",
    "C42_pending_partial",
    "C42_pending_refuted",
    "C42_unannounced_refuted",
    "C42_setting_partial",
    "C42_setting_refuted"
   ],
   "note": "Any interleaving of the main thread and the timers' threads. Proved: superseded requests never fire, the last one is not lost, nothing fires early or twice. Refuted: a late timer thread, the pending flag and the setting under races."
  },
  {
   "property": "C43",
   "status": "partial",
   "theorems": [
    "C43_function",
    "C43_method_partial",
    "C43_special",
    "C43_several",
    "C43_isolated",
    "C43_first_refuted",
    "C43_first_raises_refuted",
    "C43_unbound_refuted",
    "C43_star_refuted",
    "C43_self_refuted"
   ],
   "note": "Proved for all signatures and legal calls without starred arguments: functions, methods called through an object, self, __module__, tuples of names, and isolation of annotations that do not compile. Refuted: first parameter of a method under another name (last argument is updated, or IndexError), methods called through their class and static methods (off by one), starred parameters (annotation dropped), self in a tuple for a function (every call raises)."
  },
  {
   "property": "C44",
   "status": "partial",
   "theorems": [
    "C44_inverse",
    "C44_no_self",
    "C44_inputs",
    "C44_exact",
    "C44_total",
    "C44_import_partial",
    "C44_acyclic_partial",
    "C44_recursion_refuted",
    "C44_import_refuted",
    "C44_cycle_refuted"
   ],
   "note": "Proved for all tables of symbols: parents and children inverse, no self edges, each input an output of a parent, the whole export characterised by the recorded usages, success on sound tables, import strings for statements that bind each name once. Refuted: objects that contain themselves (RecursionError), statements that bind a name twice, absence of cycles after an edit."
  },
  {
   "property": "C45",
   "status": "partial",
   "theorems": [
    "C45_meaning",
    "C45_reflexive",
    "C45_symmetric",
    "C45_hash",
    "C45_live_hash",
    "C45_transitive_partial",
    "C45_canonical",
    "C45_contains",
    "C45_added",
    "C45_lookup_partial",
    "C45_transitive_refuted",
    "C45_lookup_refuted",
    "C45_order_refuted"
   ],
   "note": "Proved for all references: what equality means, reflexive, symmetric, hash-consistent (also for live references), an equivalence on canonical references, transitive unless the middle one is vaguer than both others, containment of references without a place is exact whatever the order of adding. Refuted: transitivity; sets that hold references with and without places lose members and depend on the order of adding."
  },
  {
   "property": "C46",
   "status": "partial",
   "theorems": [
    "C46_lookup",
    "C46_related",
    "C46_attribute",
    "C46_class_body_refuted"
   ],
   "note": "Lookup from every scope that is not a class body is exactly Python's rule; in class bodies it finds nothing outside (refuted)."
  },
  {
   "property": "C47",
   "status": "partial",
   "theorems": [
    "C47_contains_statement_slice_partial",
    "C47_refuted"
   ],
   "note": "Shows every cell of the statement slice, but whole cells rather than statements (refuted)."
  },
  {
   "property": "C48",
   "status": "proved",
   "theorems": [
    "C48_ready_exact",
    "C48_liveness_waiting_exact"
   ],
   "note": ""
  },
  {
   "property": "C49",
   "status": "partial",
   "theorems": [
    "C49_record_partial",
    "C49_search_partial",
    "C49_raises_refuted"
   ],
   "note": "Terminates and returns on all finite heaps (cycles included) whose sets hold atoms and whose dict keys are of one type, given enough stack; refuted for sets of tuples, dicts with mixed keys, and arrays against non-lists."
  },
  {
   "property": "C50",
   "status": "partial",
   "theorems": [
    "C50_cleanup_partial",
    "C50_lazy_refuted"
   ],
   "note": "In reactive mode the closing message always sends the cleanup. Refuted for lazy mode: the flag is reset before the closing message."
  },
  {
   "property": "C51",
   "status": "partial",
   "theorems": [
    "C51_writes_partial",
    "C51_refuted"
   ],
   "note": "Every assigned global is reported modified or itself live; refuted for x = x + 1, exception names and := in quasiquotes"
  },
  {
   "property": "C52",
   "status": "partial",
   "theorems": [
    "C52_value_partial",
    "C52_found_partial",
    "C52_negative_refuted",
    "C52_computed_refuted",
    "C52_other_refuted",
    "C52_call_refuted",
    "C52_item_refuted",
    "C52_called_item_refuted"
   ],
   "note": "For names, attributes and subscripts by literals or names, on objects whose attributes and items do not share names. Refuted: x[-i], x[i+1], (a or b).h, f()().h, d.a beside d['a'], x[1]()."
  },
  {
   "property": "C53",
   "status": "partial",
   "theorems": [
    "C53_store_partial",
    "C53_table_partial",
    "C53_call",
    "C53_outer_refuted",
    "C53_method_refuted",
    "C53_twice_refuted"
   ],
   "note": "Local, global and next-scope nonlocal stores are right. Refuted: nonlocal names bound further out, in methods, and in functions defined twice."
  },
  {
   "property": "C54",
   "status": "partial",
   "theorems": [
    "C54_now",
    "C54_once",
    "C54_agree",
    "C54_total",
    "C54_last_partial",
    "C54_elsewhere",
    "C54_pull"
   ],
   "note": "Exact tables over any sequence of checks, agreement, totality, composition with the frontend's closure. C54_last_partial assumes that only usages are recorded between checks."
  },
  {
   "property": "C55",
   "status": "partial",
   "theorems": [
    "C55_exact",
    "C55_bound",
    "C55_space",
    "C55_aborted_refuted",
    "C55_duped_refuted"
   ],
   "note": "exact for all histories of completed operations; refuted for stores that raise half way and for mutations with duplicates"
  },
  {
   "property": "C56",
   "status": "partial",
   "theorems": [
    "C56_mark",
    "C56_gc",
    "C56_total",
    "C56_cycle_refuted",
    "C56_variables_partial",
    "C56_refuted"
   ],
   "note": "marking, collecting and termination are exact; assigned variables stay unless stored again between deletion and collection (refuted); cyclic objects are never collected (refuted)"
  },
  {
   "property": "C57",
   "status": "partial",
   "theorems": [
    "C57_waiting",
    "C57_sound",
    "C57_exact",
    "C57_first",
    "C57_total",
    "C57_cycle_refuted",
    "C57_precheck_refuted",
    "C57_endless_refuted"
   ],
   "note": "exact where no answer depends on itself and nothing changes under the same counter; refuted otherwise (cycles, precheck); endless on self-containing data after clear (refuted)"
  },
  {
   "property": "C58",
   "status": "partial",
   "theorems": [
    "C58_scope_partial",
    "C58_recorded_partial",
    "C58_resume_partial",
    "C58_resync",
    "C58_exit_refuted",
    "C58_header_refuted",
    "C58_handler_refuted",
    "C58_base_refuted",
    "C58_resume_refuted"
   ],
   "note": "exact stack for all histories within stated restrictions; re-synchronisation at the end of top level statements for all histories; five refutations"
  },
  {
   "property": "C59",
   "status": "partial",
   "theorems": [
    "C59_partial",
    "C59_sound_partial",
    "C59_default_refuted",
    "C59_keyword_refuted",
    "C59_posonly_refuted",
    "C59_self_refuted",
    "C59_variadic_refuted"
   ],
   "note": "Exact for ordinary signatures called conventionally, sound for any call without positional-only parameters; refuted for positional arguments of defaulted parameters, keyword-only, positional-only, variadic parameters and a first parameter named self."
  },
  {
   "property": "C60",
   "status": "partial",
   "theorems": [
    "C60_partial",
    "C60_argument_partial",
    "C60_index_refuted",
    "C60_base_refuted",
    "C60_curried_refuted",
    "C60_iterable_refuted",
    "C60_star_refuted",
    "C60_argument_refuted"
   ],
   "note": "exact for expressions whose called parts are names or places, whose indices are plain and whose stars stand before names; refuted for variable indices, deep bases, curried calls, shadowed first iterables, starred targets and library arguments with subscripts"
  },
  {
   "property": "C61",
   "status": "partial",
   "theorems": [
    "C61_partial",
    "C61_star_refuted"
   ],
   "note": "proved for the same expressions; refuted for starred arguments"
  },
  {
   "property": "C62",
   "status": "partial",
   "theorems": [
    "C62_total",
    "C62_partial",
    "C62_span_partial",
    "C62_cells_partial",
    "C62_local_refuted"
   ],
   "note": "exact if functions found under local names were defined when this cell ran; refuted otherwise; termination without condition"
  },
  {
   "property": "C63",
   "status": "partial",
   "theorems": [
    "C63_partial",
    "C63_posonly_refuted"
   ],
   "note": "exact relative to the parameters that get_definition_args lists; refuted for positional-only ones"
  },
  {
   "property": "C64",
   "status": "partial",
   "theorems": [
    "C64_partial"
   ],
   "note": "under the same condition on local functions as C62"
  },
  {
   "property": "C65",
   "status": "partial",
   "theorems": [
    "C65_partial"
   ],
   "note": "under the same condition on local functions as C62"
  },
  {
   "property": "C66",
   "status": "partial",
   "theorems": [
    "C66_partial",
    "C66_seen_partial",
    "C66_unseen_refuted",
    "C66_assert_refuted",
    "C66_untouched_refuted",
    "C66_while_refuted"
   ],
   "note": "exact for := where the visitor looks and it is surely evaluated, complete where it may be skipped; refuted for assignments, for, with, class keywords, annotations, defaults, lambdas, bare annotations and while loops"
  },
  {
   "property": "C67",
   "status": "partial",
   "theorems": [
    "C67_partial",
    "C67_only_partial",
    "C67_kept_partial",
    "C67_order_refuted",
    "C67_sibling_refuted",
    "C67_while_refuted",
    "C67_keyword_refuted"
   ],
   "note": "for firm statements without lambdas, with no name set twice; refuted for repeated :=, for new names used by siblings, for while loops and for class keywords"
  },
  {
   "property": "C68",
   "status": "partial",
   "theorems": [
    "C68_partial",
    "C68_any_partial",
    "C68_raised_refuted",
    "C68_late_refuted"
   ],
   "note": "exact when nothing raises; with exceptions: own arguments, own result if the call returned, at most once; false for calls that raised"
  },
  {
   "property": "C69",
   "status": "partial",
   "theorems": [
    "C69_method_partial",
    "C69_function_partial",
    "C69_nothing_partial",
    "C69_annotated_partial",
    "C69_seen_partial",
    "C69_pop_refuted",
    "C69_upsert_none_refuted",
    "C69_raised_refuted"
   ],
   "note": "exact set of symbols for each kind of handler; false for methods whose event is not implemented yet (dict.pop), for calls that raised, for upserts without a module"
  },
  {
   "property": "C70",
   "status": "partial",
   "theorems": [
    "C70_method_partial",
    "C70_function_partial",
    "C70_registered_partial",
    "C70_registered_function_partial",
    "C70_left_alone_partial",
    "C70_shared_refuted",
    "C70_bound_refuted",
    "C70_module_refuted"
   ],
   "note": "exact for methods found through classes and for registered functions; false for functions shared by classes, bound methods, and modules of methods"
  },
  {
   "property": "C71",
   "status": "partial",
   "theorems": [
    "C71_partial",
    "C71_any_partial",
    "C71_refuted"
   ],
   "note": "Exact for references in which no $: follows a $ or $$, and exact in general with what the code does; a $: after a $ is lost (refuted)."
  },
  {
   "property": "C72",
   "status": "partial",
   "theorems": [
    "C72_store_partial",
    "C72_session_partial",
    "C72_same_run_refuted",
    "C72_overwritten_refuted",
    "C72_unknown_refuted"
   ],
   "note": "Exact effect of one marked store and exact content of the books after any history; within one run an ordinary store does not undo a marked one (refuted)."
  },
  {
   "property": "C73",
   "status": "partial",
   "theorems": [
    "C73_complete_partial",
    "C73_sound_partial",
    "C73_exact_partial",
    "C73_total_partial",
    "C73_round_partial",
    "C73_sibling_refuted"
   ],
   "note": "Complete, sound, exact for nested containment, total, and over when the round ends; siblings of what is marked cascade too (refuted)."
  },
  {
   "property": "C74",
   "status": "partial",
   "theorems": [
    "C74_partial",
    "C74_time_partial",
    "C74_total",
    "C74_refuted"
   ],
   "note": "exact lower bound and bounded above for variables with a time of their own; refuted for those without"
  },
  {
   "property": "C75",
   "status": "partial",
   "theorems": [
    "C75_plain",
    "C75_parts_partial",
    "C75_refuted"
   ],
   "note": "exact for variables with nothing in them; for parts, exact up to the time of the variable itself; refuted for versions made by writes of parts"
  },
  {
   "property": "C76",
   "status": "partial",
   "theorems": [
    "C76_dynamic_partial",
    "C76_static_partial",
    "C76_blocked",
    "C76_reads_only",
    "C76_refuted"
   ],
   "note": "exact for symbols that were written; what add_data_dep does with the dependency is in other areas; the version noted for a static use is refuted"
  },
  {
   "property": "C77",
   "status": "proved",
   "theorems": [
    "C77",
    "C77_exact"
   ],
   "note": "All finite values, every set order and cache state."
  },
  {
   "property": "C78",
   "status": "partial",
   "theorems": [
    "C78_partial",
    "C78_nested_refuted",
    "C78_shadow_refuted",
    "C78_cache_refuted",
    "C78_import_refuted"
   ],
   "note": "Under a plain cache and visible names; refuted for nested classes, shadowing classes, respelled aliases and missing imports."
  },
  {
   "property": "C79",
   "status": "partial",
   "theorems": [
    "C79_open",
    "C79_run",
    "C79_partial",
    "C79_edit_refuted",
    "C79_contents_refuted",
    "C79_twice_refuted"
   ],
   "note": "Open verdicts always; kept ones when contents are unchanged and each variable is rebound at most once to another class or same annotation; refuted otherwise."
  },
  {
   "property": "C80",
   "status": "partial",
   "theorems": [
    "C80_partial",
    "C80_inherit_refuted"
   ],
   "note": "All faults, all cells that leave patched things alone; refuted when a tracer is registered in front of one derived from it."
  },
  {
   "property": "C81",
   "status": "partial",
   "theorems": [
    "C81_partial",
    "C81_refuted"
   ],
   "note": "Holds with dataflow off; refuted with it on."
  },
  {
   "property": "C82",
   "status": "partial",
   "theorems": [
    "C82_partial",
    "C82_guard",
    "C82_register",
    "C82_front_refuted",
    "C82_fault_refuted",
    "C82_capture_refuted",
    "C82_untraced_refuted"
   ],
   "note": "All histories of traced runs without faults whose cells leave pyccolo's entries in front; refuted otherwise."
  },
  {
   "property": "C83",
   "status": "partial",
   "theorems": [
    "C83_partial",
    "C83_before_refuted",
    "C83_interrupt_refuted"
   ],
   "note": "Exceptions raised after the cell; refuted for exceptions before it and for interrupts."
  },
  {
   "property": "C84",
   "status": "partial",
   "theorems": [
    "C84_partial",
    "C84_held_refuted",
    "C84_reuse_refuted"
   ],
   "note": "Proved for every cell that is not spoiled (last run held back, or reused after another text). The full statement is refuted: after a held back run the tree of the cell is that of the placeholder; after a reused run it is that of the run before."
  },
  {
   "property": "C85",
   "status": "partial",
   "theorems": [
    "C85_partial",
    "C85_refuted",
    "C85_edited_refuted"
   ],
   "note": "Proved if the cell and the cell of the reused run still contain the text. Refuted if either has changed in between."
  },
  {
   "property": "C86",
   "status": "partial",
   "theorems": [
    "C86_partial",
    "C86_cause",
    "C86_again",
    "C86_unnamed_refuted",
    "C86_quiet_refuted"
   ],
   "note": "Result shown proved for histories without reused runs; forcing proved for cells with ids from the frontend; refuted after quiet reuse and without ids."
  },
  {
   "property": "C87",
   "status": "partial",
   "theorems": [
    "C87_asked",
    "C87_end",
    "C87_settled",
    "C87_partial",
    "C87_native",
    "C87_refuted",
    "C87_nested_refuted"
   ],
   "note": "All histories: class and last command agree, and the end of a run applies it. Tracked runs exactly for orderly sessions; refuted for load and unload in one cell and for runs inside of a cell that unloads."
  },
  {
   "property": "C88",
   "status": "partial",
   "theorems": [
    "C88_number",
    "C88_partial",
    "C88_nested_refuted"
   ],
   "note": "Number of every run with history; lookup for orderly sessions; refuted for runs inside of runs."
  },
  {
   "property": "C89",
   "status": "partial",
   "theorems": [
    "C89_partial",
    "C89_refuted"
   ],
   "note": "Orderly sessions; refuted for runs inside of runs."
  },
  {
   "property": "C90",
   "status": "partial",
   "theorems": [
    "C90_partial",
    "C90_refuted"
   ],
   "note": "Orderly sessions in which no silent run loads the extension; refuted if a run without history does."
  },
  {
   "property": "C91",
   "status": "partial",
   "theorems": [
    "C91_shown",
    "C91_again",
    "C91_partial",
    "C91_refuted"
   ],
   "note": "Exact description of what is shown; refuted that only frames of the instrumentation are hidden."
  },
  {
   "property": "C92",
   "status": "partial",
   "theorems": [
    "C92_own",
    "C92_partial",
    "C92_disabled_refuted",
    "C92_refuted"
   ],
   "note": "Runs with dataflow and outputs with lengths; refuted otherwise."
  },
  {
   "property": "C93",
   "status": "partial",
   "theorems": [
    "C93_partial",
    "C93_params_partial",
    "C93_distinct",
    "C93_order_refuted",
    "C93_none_refuted",
    "C93_last_line_refuted",
    "C93_names_refuted",
    "C93_globals_refuted"
   ],
   "note": "Proved for a fragment without effects, if names do not clash, no argument is None and the caller is the notebook; refuted otherwise."
  },
  {
   "property": "C94",
   "status": "partial",
   "theorems": [
    "C94_ends",
    "C94_own",
    "C94_partial",
    "C94_refuted",
    "C94_raised_refuted"
   ],
   "note": "Ends always and the copy itself is clean; all it reaches is clean if nothing is shared or recursive; refuted otherwise."
  },
  {
   "property": "C95",
   "status": "partial",
   "theorems": [
    "C95_partial",
    "C95_later_partial",
    "C95_refuted"
   ],
   "note": "The same when made; after later assignments only if nothing it uses has a source and it has no closure; refuted otherwise."
  },
  {
   "property": "C96",
   "status": "partial",
   "theorems": [
    "C96_known_partial",
    "C96_partial",
    "C96_agree_partial",
    "C96_closed_partial",
    "C96_one_way_partial",
    "C96_completes_partial",
    "C96_refuted"
   ],
   "note": "All fitting histories; refuted for reused runs of statements that have parents."
  },
  {
   "property": "C97",
   "status": "partial",
   "theorems": [
    "C97_partial",
    "C97_place_refuted",
    "C97_half_refuted"
   ],
   "note": "For places that hold nothing but an earlier move; refuted when the text was edited and after reused runs."
  },
  {
   "property": "C98",
   "status": "partial",
   "theorems": [
    "C98_partial",
    "C98_when_partial",
    "C98_moved_partial",
    "C98_refuted"
   ],
   "note": "The slice is the closure over the facts and completes under an exact condition; refuted: the statement that makes a widget is missing."
  },
  {
   "property": "C99",
   "status": "partial",
   "theorems": [
    "C99_value_partial",
    "C99_idle_partial",
    "C99_objects_partial",
    "C99_loaded_partial",
    "C99_found_partial",
    "C99_slice_refuted",
    "C99_none_refuted",
    "C99_caught_refuted"
   ],
   "note": "for chains whose slices after the first step are names or constants; refuted for others, for attributes of None and after caught exceptions; callee bodies and notebook classes not modelled"
  }
 ]
}