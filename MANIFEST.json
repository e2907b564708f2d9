{"claims": [
{"property": "C01", "status": "proved", "theorems": ["C01_letters_exact", "C01_letters_exact_ignoring_liveness", "C01_letter_implications"], "note": ""},
{"property": "C02", "status": "proved", "theorems": ["C02_step_reconstructs_state", "C02_step_reconstructs_letters", "C02_empty_iff_same_letters", "C02_letter_unchanged_iff_equal", "C02_reverse_is_mirror", "C02_domain_diff_pointwise", "C02_domain_diff_panics_on_missing_place", "C02_key_column_hides_replacement_refuted"], "note": "Exact for letters and boolean facts. The extra theorem C02_key_column_hides_replacement_refuted records that the loan/move key columns do not distinguish one key from another."},
{"property": "C03", "status": "proved", "theorems": ["C03_join_is_glb", "C03_join_laws", "C03_changed_flag_exact"], "note": ""},
{"property": "C04", "status": "partial", "theorems": ["C04_join_copies_new_places_partial", "C04_domain_join_refuted"], "note": "The full claim is false of the code: the join is computed on a temporary copy of a shared entry and dropped, so shared places are never lowered and the changed flag stays true for ever (C04_domain_join_refuted). The part that holds is C04_join_copies_new_places_partial."},
{"property": "C05", "status": "proved", "theorems": ["C05_moved_iff_reaching_move"], "note": ""},
{"property": "C06", "status": "proved", "theorems": ["C06_uninit_iff_nested_uninit"], "note": ""},
{"property": "C07", "status": "proved", "theorems": ["C07_loans_refine_conflicting_places", "C07_choice_independent_of_fact_order"], "note": ""},
{"property": "C08", "status": "proved", "theorems": ["C08_declared_capabilities"], "note": "Raw pointers are classed with non-references, as in the code."},
{"property": "C09", "status": "proved", "theorems": ["C09_roundtrip", "C09_lookup_succeeds_iff_registered", "C09_same_path_iff_same_normal_form", "C09_paths_never_change_meaning"], "note": ""},
{"property": "C10", "status": "proved", "theorems": ["C10_query_is_composition_of_facts", "C10_query_defined_iff_registered", "C10_derivation_total", "C10_domain_holds_every_query"], "note": ""},
{"property": "C11", "status": "proved", "theorems": ["C11_region_is_hull_of_live_points"], "note": ""},
{"property": "C12", "status": "proved", "theorems": ["C12_contains_iff_flows", "C12_closure_adds_nothing"], "note": ""},
{"property": "C13", "status": "partial", "theorems": ["C13_verdict_iff_documented_rules", "C13_answers_iff_regions_in_range", "C13_declared_flows_accepted_partial", "C13_declared_flow_rejected_refuted"], "note": "The decision list is proved exactly. Its last sentence (declared flows are never reported missing) is false: C13_declared_flow_rejected_refuted; the part that holds is C13_declared_flows_accepted_partial."},
{"property": "C14", "status": "partial", "theorems": ["C14_char_ranges", "C14_spans_partial", "C14_determined_by_covered_text", "C14_empty_spans_refuted"], "note": "Proved in full for CharRange and for non-empty compiler spans; with empty compiler spans the claim is false (C14_empty_spans_refuted)."},
{"property": "C15", "status": "partial", "theorems": ["C15_loan_shown_iff_visible", "C15_loan_highlight_exact", "C15_move_anchor_iff_invisible", "C15_visible_move_anchor_refuted", "C15_move_highlight_exact"], "note": "Loans: proved when the first and last span of the extent are not empty. Moves: false, the visibility test is inverted (C15_visible_move_anchor_refuted); what happens instead is C15_move_anchor_iff_invisible."},
{"property": "C16", "status": "proved", "theorems": ["C16_first_error"], "note": "errors_exist, which also counts warnings, is C95."},
{"property": "C17", "status": "partial", "theorems": ["C17_flagged_iff_missing", "C17_drawn_letters", "C17_is_violation_partial", "C17_is_violation_ignores_flow_refuted", "C17_expected_by_use_kind", "C17_borrow_expects_write_iff_mutable", "C17_variable_expects_by_adjustment"], "note": "Proved for what is drawn and for every use kind. The library predicate is_violation ignores flow violations (C17_is_violation_ignores_flow_refuted); what it decides is C17_is_violation_partial."},
{"property": "C18", "status": "proved", "theorems": ["C18_choice", "C18_choice_unique"], "note": "The fuzzy name matcher is an oracle."},
{"property": "C19", "status": "proved", "theorems": ["C19_reported_boundaries", "C19_order_kept"], "note": ""},
{"property": "C20", "status": "partial", "theorems": ["C20_recorded_iff_use_site", "C20_recorded_iff_use_site_of_body", "C20_only_listed_parts_skipped", "C20_recorded_once", "C20_source_order", "C20_hidden_move_refuted", "C20_copy_field_needs_own_refuted"], "note": "Recorded boundaries are characterised exactly, once each and in source order. Two parts of the claim are false: moves inside skipped receivers get no boundary (C20_hidden_move_refuted) and a copy of a field is said to need ownership (C20_copy_field_needs_own_refuted)."},
{"property": "C21", "status": "proved", "theorems": ["C21_on_every_path_to_every_exit", "C21_body_post_dominance", "C21_antisymmetric", "C21_diverging_function"], "note": "rustc's dominator tree and rustc_utils' PostDominators are modelled by their meaning. A function without a return is covered by C21_diverging_function."},
{"property": "C22", "status": "proved", "theorems": ["C22_path_meaning", "C22_reflexive", "C22_antisymmetric", "C22_transitive", "C22_dominators_form_a_chain"], "note": ""},
{"property": "C23", "status": "partial", "theorems": ["C23_gathered", "C23_locations_exact", "C23_answer_iff_locations", "C23_entry", "C23_exit_partial", "C23_entry_exit_partial", "C23_order_independent_partial", "C23_diverging_exit_refuted", "C23_check_passes"], "note": "Proved for functions that return. In a function that never returns the exit is whatever block the hash map yields first (C23_diverging_exit_refuted)."},
{"property": "C24", "status": "partial", "theorems": ["C24_successors_partial", "C24_predecessors", "C24_converse", "C24_imaginary_edges_refuted"], "note": "Proved except for imaginary edges, which are not removed (C24_imaginary_edges_refuted)."},
{"property": "C25", "status": "partial", "theorems": ["C25_linear_sound_partial", "C25_chained", "C25_backward_refuted"], "note": "Chaining is proved. Soundness is proved except for steps recorded in an arm that lead backwards to the join of that arm's branch; those exist (C25_backward_refuted)."},
{"property": "C26", "status": "proved", "theorems": ["C26_parents", "C26_fresh", "C26_close", "C26_others", "C26_nested", "C26_filtered"], "note": "C26_filtered ties the scopes to the places left out of a table."},
{"property": "C27", "status": "partial", "theorems": ["C27_close_only_own", "C27_close_complete_partial", "C27_close_with_child", "C27_close_refuted", "C27_freeze"], "note": "Closing never closes anything else, and closes everything when the branch has no implicit child or the unification table keeps the first of two equals. With ena's table closing a branch with an implicit child closes nothing (C27_close_with_child, C27_close_refuted)."},
{"property": "C28", "status": "partial", "theorems": ["C28_search_ends_iff", "C28_open_branch_diverges_iff", "C28_open_branch_refuted", "C28_insert_terminates_partial", "C28_insert_refuted"], "note": "Opening a branch ends iff control is not forced around a cycle (refuted for endless loops by C28_open_branch_refuted). Inserting ends in bodies made of ifs and loops (C28_insert_terminates_partial) and need not elsewhere (C28_insert_refuted)."},
{"property": "C29", "status": "partial", "theorems": ["C29_computed_join_is_first", "C29_found_iff_partial", "C29_order_independent", "C29_panicking_arm_refuted", "C29_diverging_function_refuted"], "note": "Soundness, minimality and order independence are proved for functions that return. The claim 'absent iff there is none' is false when an arm panics or loops (C29_panicking_arm_refuted); in functions that never return the result is arbitrary (C29_diverging_function_refuted)."},
{"property": "C30", "status": "partial", "theorems": ["C30_total_iff", "C30_sound", "C30_end_kept", "C30_exact_partial", "C30_lost_refuted", "C30_panic_refuted"], "note": "Every table kept is right, every end location keeps a table, and all tables are kept unless something inside a branch ends where something outside it ends (C30_exact_partial); then tables are overwritten (C30_lost_refuted). Branches without arms make the builder panic (C30_total_iff, C30_panic_refuted)."},
{"property": "C31", "status": "partial", "theorems": ["C31_once", "C31_rows_ordered", "C31_rows_sound", "C31_position", "C31_complete", "C31_candidates", "C31_error_line_refuted"], "note": "All parts hold; in addition steps that end before the first error on the error's own line are dropped (C31_error_line_refuted)."},
{"property": "C32", "status": "partial", "theorems": ["C32_merged", "C32_line_iff", "C32_two_cancel", "C32_net_partial", "C32_order_partial", "C32_net_refuted", "C32_order_refuted", "C32_all_mode_refuted"], "note": "The merge is characterised exactly; it is the net change for a place that alternates between two states in execution order, and order independent with one change per place and line. Both fail in general (C32_net_refuted, C32_order_refuted, C32_all_mode_refuted)."},
{"property": "C33", "status": "partial", "theorems": ["C33_scopes", "C33_history", "C33_built", "C33_freeze_partial", "C33_freeze_iff", "C33_done", "C33_not_done", "C33_freeze_refuted", "C33_panic_refuted", "C33_hang_refuted"], "note": "Scopes and hints are always restored and the only internal error is a branch that cannot be opened; the builder is driven by a well-nested history at executable locations; segments can be frozen exactly if no branch was opened implicitly. Refuted in general: a statement inside a lazy operand inside an arm makes freezing fail, two levels of it panic, and an irrefutable match before an endless loop hangs."},
{"property": "C34", "status": "partial", "theorems": ["C34_total_iff", "C34_groups_iff", "C34_adjacent", "C34_idempotent", "C34_two_passes_partial", "C34_two_passes_refuted"], "note": "Exact characterisation of a grouping pass (C34_groups_iff). The interpreter does two passes: equal to one when every node found has a source range (C34_two_passes_partial); otherwise a state may be lost (C34_two_passes_refuted)."},
{"property": "C35", "status": "proved", "theorems": ["C35_shows", "C35_in_bounds", "C35_elements", "C35_map"], "note": ""},
{"property": "C36", "status": "partial", "theorems": ["C36_locates_partial", "C36_elements_partial", "C36_panic_refuted", "C36_wrong_refuted", "C36_enum_refuted", "C36_inside_refuted", "C36_single_refuted"], "note": "Proved for objects whose fields are declared in memory order without padding; fails with padding (panic), reordered fields (wrong path), enums (panic) and buffers of one element, and a pointer into a Vec or String itself gives the whole (C36_*_refuted)."},
{"property": "C37", "status": "partial", "theorems": ["C37_shown_as_partial", "C37_right_iff_bytes", "C37_wide_refuted", "C37_stack_refuted"], "note": "Exact characterisation of what is shown; right iff the elements are bytes (C37_right_iff_bytes); slices of wide elements and of stack arrays are shown wrongly or panic (C37_wide_refuted, C37_stack_refuted)."},
{"property": "C38", "status": "partial", "theorems": ["C38_aligned", "C38_moved_partial", "C38_reassign_refuted", "C38_call_refuted", "C38_memory_refuted"], "note": "Sets stay aligned with the stack, and the set of a frame is exactly characterised. The property fails for re-assigned variables, moves into calls and variables in memory (C38_reassign_refuted, C38_call_refuted, C38_memory_refuted)."},
{"property": "C39", "status": "partial", "theorems": ["C39_within_state_partial", "C39_number_iff", "C39_dense", "C39_across_states_refuted", "C39_error_number_iff", "C39_error_refuted"], "note": "Numbers identify allocations within one state; not across states, and the number of the error is always 0 (C39_across_states_refuted, C39_error_refuted)."},
{"property": "C40", "status": "proved", "theorems": ["C40_trace", "C40_nonempty", "C40_no_crash", "C40_location_unique", "C40_grouping_total"], "note": "Miri is a record of functions; assumed of it: a step changes only the top of the stack (Proper)."},
{"property": "C41", "status": "partial", "theorems": ["C41_source_lines", "C41_positions_partial", "C41_unique", "C41_line_count", "C41_characters_iff", "C41_characters_refuted", "C41_leftover_refuted"], "note": "Lines and positions are proved; positions are byte offsets, equal to character offsets iff the text before is ASCII (C41_characters_refuted); markers in hidden lines and markers that arise by removing others stay in the code (C41_leftover_refuted)."},
{"property": "C42", "status": "partial", "theorems": ["C42_lines_partial", "C42_malformed_refuted", "C42_comma_refuted"], "note": "All recorded lines and matchers are characterised exactly; malformed markers are not reported (C42_malformed_refuted)."},
{"property": "C43", "status": "proved", "theorems": ["C43_block_iff", "C43_ranges", "C43_ordered", "C43_complete", "C43_trim", "C43_inline_refuted", "C43_leftover_refuted"], "note": "The exact grammar is in BookSpec.BlockText; it has surprises: C43_inline_refuted, C43_leftover_refuted."},
{"property": "C44", "status": "partial", "theorems": ["C44_each_partial", "C44_disjoint_partial", "C44_overlap_refuted"], "note": "Blocks are disjoint from each other, and macros; a macro inside a block overlaps it (C44_overlap_refuted); sufficient condition in C44_disjoint_partial."},
{"property": "C45", "status": "partial", "theorems": ["C45_expands", "C45_complete", "C45_crash_refuted", "C45_crash_iff_partial"], "note": "Exact expansion and completeness; an unknown option crashes the preprocessor (C45_crash_refuted, C45_crash_iff_partial)."},
{"property": "C46", "status": "proved", "theorems": ["C46_stream", "C46_collision_refuted"], "note": "The byte stream is injective; that the 64-bit key collides for some pair of blocks is C46_collision_refuted (pigeonhole, for every hash function)."},
{"property": "C47", "status": "proved", "theorems": ["C47_history", "C47_saved", "C47_crash", "C47_any_file", "C47_unchanged"], "note": "For every codec that reads back what it wrote and rejects proper prefixes (gzip+JSON are not modelled)."},
{"property": "C48", "status": "partial", "theorems": ["C48_results_partial", "C48_own_partial", "C48_cache_partial", "C48_entries", "C48_provenance", "C48_progress", "C48_collision_refuted"], "note": "Equivalence with sequential processing holds if blocks with the same key give the same result; with a collision or a nondeterministic analysis it is refuted (C48_collision_refuted). Cache content and provenance hold without assumptions."},
{"property": "C49", "status": "partial", "theorems": ["C49_iff", "C49_error_iff", "C49_map", "C49_not_cached", "C49_large_output_refuted"], "note": "Exact characterisation of success and of the map. A process whose output exceeds the pipe is never read and reported as a timeout (C49_large_output_refuted)."},
{"property": "C50", "status": "partial", "theorems": ["C50_ok_iff", "C50_operation", "C50_failure", "C50_answers", "C50_unknown", "C50_bad_request_refuted", "C50_no_answer_refuted", "C50_exit_refuted"], "note": "Outputs are returned iff the run ended in time; errors and timeouts give status 500, unknown paths 404. Refuted: unreadable requests get status 200, panics give no answer, and the exit status is ignored."},
{"property": "C51", "status": "partial", "theorems": ["C51_marked", "C51_fails_iff", "C51_unmarked", "C51_error_partial", "C51_red", "C51_error_place_refuted"], "note": "The states shown, their order and their numbers are exact (C51_marked, C51_fails_iff, C51_unmarked). The error is shown with the last state shown, which is not where the execution failed unless a mark belongs to it (C51_error_place_refuted)."},
{"property": "C52", "status": "partial", "theorems": ["C52_objects", "C52_cells", "C52_drawn_iff", "C52_arrows", "C52_leads_partial", "C52_right_object_partial", "C52_element_refuted", "C52_index_100_refuted", "C52_special_field_refuted", "C52_iter_refuted", "C52_not_finite_refuted", "C52_shadowed_refuted"], "note": "Cells, pointers and arrows are characterised exactly (C52_cells, C52_drawn_iff, C52_arrows); a pointer without a drawn target removes the whole display. That happens for elements left out of long arrays, fields of vectors and boxes, structs called Iter; element 100 and shadowed variables get a wrong arrow (the _refuted theorems). A float that is not finite anywhere in the states removes the display too (C52_not_finite_refuted)."},
{"property": "C53", "status": "proved", "theorems": ["C53_candidates_exact", "C53_candidates_in_location_order"], "note": ""},
{"property": "C54", "status": "proved", "theorems": ["C54_nearest_ancestor"], "note": ""},
{"property": "C55", "status": "proved", "theorems": ["C55_flow_boundary", "C55_constraints_exact"], "note": ""},
{"property": "C56", "status": "proved", "theorems": ["C56_path_meaning"], "note": ""},
{"property": "C57", "status": "proved", "theorems": ["C57_reported_is_the_only_next", "C57_unreported_means_stop_or_choice"], "note": "The converse direction is stated for terminators whose targets are distinct."},
{"property": "C58", "status": "proved", "theorems": ["C58_tree", "C58_arms"], "note": ""},
{"property": "C59", "status": "partial", "theorems": ["C59_never_an_error", "C59_crash_only_nested_partial", "C59_crash_iff", "C59_crash_refuted"], "note": "Inserting never returns an error, and panics exactly when an implicit branch is needed inside an implicit branch; that case can occur (C59_crash_refuted)."},
{"property": "C60", "status": "partial", "theorems": ["C60_split_executable", "C60_split_dominates_refuted"], "note": "Every split can be executed; its start need not lie on every path to its end (C60_split_dominates_refuted)."},
{"property": "C61", "status": "proved", "theorems": ["C61_insert_recorded"], "note": ""},
{"property": "C62", "status": "partial", "theorems": ["C62_uint_iff_partial", "C62_int_iff_partial", "C62_wide_refuted"], "note": "Right iff the value fits 64 bits; 128-bit values are cut (C62_wide_refuted)."},
{"property": "C63", "status": "partial", "theorems": ["C63_ascii_partial", "C63_refuted"], "note": "Right iff the string is ASCII (C63_ascii_partial); every other string is shown with too many characters (C63_refuted)."},
{"property": "C64", "status": "partial", "theorems": ["C64_heap_partial", "C64_same_object_partial", "C64_terminates", "C64_cycle_refuted", "C64_self_reference_refuted", "C64_shadow_refuted"], "note": "Proved when no allocation leads back to itself. Cyclic memory is read for ever, a self reference gives two objects for one allocation, shadowed variables are ambiguous (C64_*_refuted)."},
{"property": "C65", "status": "partial", "theorems": ["C65_first_pointer_partial", "C65_reference_first_refuted"], "note": "The object shows what the first pointer read sees (C65_first_pointer_partial); a reference read before the owner hides the rest (C65_reference_first_refuted)."},
{"property": "C66", "status": "partial", "theorems": ["C66_stale_refuted"], "note": "Refuted: the key does not contain the version, so entries of an older tool are served."},
{"property": "C67", "status": "partial", "theorems": ["C67_interpreter_partial", "C67_body_error_partial", "C67_rejected_refuted"], "note": "Holds for the interpreter and for analysis errors in bodies, unless rustc gives up with a fatal error; refuted for permissions of a program rejected before its analysis (C67_rejected_refuted)."},
{"property": "C68", "status": "partial", "theorems": ["C68_options_partial", "C68_flows_refuted"], "note": "The parsed command line is determined exactly; interpreter with showFlows always fails (C68_flows_refuted)."},
{"property": "C69", "status": "partial", "theorems": ["C69_presence_partial", "C69_value_refuted", "C69_page_refuted"], "note": "Only the presence of the option matters (C69_presence_partial), so shouldFail=false and the page's box have no effect (C69_value_refuted, C69_page_refuted)."},
{"property": "C70", "status": "partial", "theorems": ["C70_in_time_partial", "C70_left_running_refuted"], "note": "Nothing is left if commands end in time; every timed-out command goes on running (C70_left_running_refuted)."},
{"property": "C71", "status": "partial", "theorems": ["C71_reported_iff", "C71_unreported_refuted"], "note": "Reported iff the run ended in time (C71_reported_iff); timeouts and unreadable requests are not reported (C71_unreported_refuted)."},
{"property": "C72", "status": "partial", "theorems": ["C72_numbers", "C72_own_number_refuted", "C72_colours", "C72_bends"], "note": "Arrows are numbered through; the number is that among its own kind iff no arrow of another kind comes before (C72_own_number_refuted)."},
{"property": "C73", "status": "partial", "theorems": ["C73_characters_partial", "C73_astral_refuted"], "note": "Right below U+10000 (C73_characters_partial), wrong for every other character (C73_astral_refuted)."},
{"property": "C74", "status": "partial", "theorems": ["C74_position", "C74_position_partial", "C74_astral_refuted", "C74_line", "C74_fails_iff"], "note": "The position is too small by exactly the number of astral characters before it in its line (C74_position): right without them (C74_position_partial), wrong with them (C74_astral_refuted). The line is always right (C74_line)."},
{"property": "C75", "status": "partial", "theorems": ["C75_marked_iff", "C75_marks", "C75_move_region_refuted"], "note": "When marking succeeds it marks exactly the reported ranges (C75_marks); it succeeds iff all of them are forward ranges (C75_marked_iff). One move region makes the whole analysis invisible, since the point of a move is always empty (C75_move_region_refuted, using C15)."},
{"property": "C76", "status": "partial", "theorems": ["C76_steps", "C76_boundaries_iff", "C76_hidden_refuted", "C76_shown"], "note": "All steps are shown (C76_steps, C76_shown); of the boundaries the first at each position (C76_boundaries_iff), others never (C76_hidden_refuted)."},
{"property": "C77", "status": "proved", "theorems": ["C77_letters", "C77_keys", "C77_icon", "C77_changed_has_icon"], "note": "Letters, icon and keys, and that a changed letter always comes with an icon, for all rows the permission facts can produce."},
{"property": "C78", "status": "partial", "theorems": ["C78_rows", "C78_focus", "C78_fails_iff", "C78_selected_partial", "C78_part_refuted", "C78_open"], "note": "Exact description with focus by part of the path (C78_focus, C78_rows, C78_fails_iff, C78_open); what is selected is in focus (C78_selected_partial), but so are all paths containing the name (C78_part_refuted)."},
{"property": "C79", "status": "partial", "theorems": ["C79_edit_clears", "C79_current_partial", "C79_late_answer_refuted", "C79_failed_answer_refuted", "C79_diagrams_refuted"], "note": "Holds in histories without edits while waiting and without failed analyses (C79_current_partial). Late and failed answers draw old results into new code; diagrams stay (the _refuted theorems)."},
{"property": "C80", "status": "partial", "theorems": ["C80_sign", "C80_sign_iff", "C80_stays_refuted"], "note": "Shown from the first result of code that should fail (C80_sign), never removed (C80_stays_refuted)."},
{"property": "C81", "status": "partial", "theorems": ["C81_blocks_iff", "C81_empty_refuted", "C81_operations_iff", "C81_dead_refuted", "C81_hide_value_refuted", "C81_settings", "C81_block_heeds"], "note": "Which blocks and operations are shown is characterised exactly (C81_blocks_iff, C81_operations_iff). A block without code stops the page; hiding the code stops the operations after it, whatever the value of the option (the _refuted theorems)."},
{"property": "C82", "status": "partial", "theorems": ["C82_refresh_refuted", "C82_mark", "C82_diagrams_partial"], "note": "Diagrams are replaced by those of the new answers (C82_diagrams_partial); steps and boundaries always disappear (C82_refresh_refuted)."},
{"property": "C83", "status": "partial", "theorems": ["C83_in_order", "C83_all_partial", "C83_all_refuted", "C83_places"], "note": "In source order and never twice, always; complete if every decision and side has a location. Refuted otherwise: arms are skipped silently."},
{"property": "C84", "status": "proved", "theorems": ["C84_hidden"], "note": "For all functions and tables."},
{"property": "C85", "status": "partial", "theorems": ["C85_sides", "C85_arm_lost_refuted"], "note": "Every split step ends at a side its target leads to and is shown at that side's place, or at the default place if the target leads to no side (C85_sides). Refuted: when a switch target leads to several arms, all steps of all but one of them are lost, which one depends on a hash map's order."},
{"property": "C86", "status": "partial", "theorems": ["C86_shown_iff", "C86_states_shown", "C86_states_iff", "C86_states_covered_partial", "C86_expression_body_refuted"], "note": "Where a location is shown is characterised exactly, for every hash order; every state shown is one of the execution; a state all of whose frames are shown leaves a state at its text if no text is in a macro. Refuted: nothing is shown of what happens while a closure whose body is not a block runs, in it or in what it calls."},
{"property": "C87", "status": "partial", "theorems": ["C87_shown", "C87_told", "C87_stopped_refuted", "C87_message_refuted"], "note": "Normal ends and undefined behaviour are shown with all states. Refuted: any other error is answered without a single state, and an error whose message is not a text makes the tool panic."},
{"property": "C88", "status": "partial", "theorems": ["C88_shown_partial"], "note": "If a state is shown it is right, for all programs whose vectors hold no references and in which Vec and String are those of the standard library. For vectors of references see C89_vec_of_refs_refuted."},
{"property": "C89", "status": "partial", "theorems": ["C89_shown_partial", "C89_str_refuted", "C89_slice_refuted", "C89_memory_refuted", "C89_name_refuted", "C89_text_refuted", "C89_length_refuted", "C89_payload_refuted", "C89_letters_refuted", "C89_empty_box_refuted", "C89_unknown_refuted", "C89_vec_of_refs_refuted"], "note": "Values in order (Ready: known types, no cycle, pointers that can be expressed as paths) are always read to the end. Refuted otherwise: string literals are read for ever, slices and user types called Vec or String panic, a box of unit and a type the reader does not know make the state disappear, a vector of references is read as a vector of what they point to, a pointer into memory of the compiler panics, and so does a reference to what is in a variant of an enum (C89_*_refuted)."},
{"property": "C90", "status": "partial", "theorems": ["C90_shown_partial", "C90_initialised", "C90_padding_refuted", "C90_array_padding_refuted", "C90_empty_refuted", "C90_captured_refuted", "C90_frames", "C90_frames_partial", "C90_union_refuted", "C90_slots", "C90_pointer_refuted", "C90_state_partial"], "note": "An iff for layouts without padding; sound for all layouts. Refuted: a borrowed variable with padding is never shown and pointers to it look freed; a variable of size 0 is shown before it is initialised; variables captured by a closure are not shown; a borrowed union panics."},
{"property": "C91", "status": "partial", "theorems": ["C91_ways", "C91_rows_sound", "C91_replay_partial", "C91_join_refuted", "C91_hidden_refuted"], "note": "There is a way for every choice of arms, every row read on it is the change over that step, and the rows add up if no table is overwritten, the place is not hidden on the way and nothing happens to it where arms join. Refuted: a change where arms join is never shown (moved in the other arm), and a variable declared by a let whose block ends with a decision is never shown to gain its permissions."},
{"property": "C92", "status": "proved", "theorems": ["C92_monotone", "C92_same_facts"], "note": "For all pairs of inputs on which the derivation answers."},
{"property": "C93", "status": "partial", "theorems": ["C93_pictures_partial", "C93_success_partial", "C93_ending"], "note": "Every state shown is right, and programs that end and whose variables can be read are shown to the end. However an execution stops, the user is told how, gets the message, or (no text, a panic of the reader) the tool panics. Missing: types with padding (C90), types the reader does not know (C88, C89), and states that are not shown (C86)."},
{"property": "C94", "status": "partial", "theorems": ["C94_reported", "C94_supported", "C94_never_silent_partial", "C94_silent_refuted"], "note": "Only guards are reported, in source order and at most once; if every decision and side has a location, a function with a guard is never answered with steps. Refuted otherwise: arms that are left out take their guards with them, and the answer is a success."},
{"property": "C95", "status": "partial", "theorems": ["C95_reports_exist_partial", "C95_warning_counts_refuted"], "note": "Yes iff anything was reported since the body was begun. Refuted as stated: a warning counts as an error. The function has no caller at the pinned commit."},
{"property": "C96", "status": "proved", "theorems": ["C96_sound", "C96_complete", "C96_actual_unique", "C96_source_order", "C96_crash_culprit", "C96_answers"], "note": "Assumes that the facts and flows answer (C05, C13) and that the located constraints are those the flow analysis was given. A failing conversion of the position of the first error counts as a failure even where no boundary would be compared with it."},
{"property": "C97", "status": "proved", "theorems": ["C97_pointing", "C97_leaving", "C97_boundary", "C97_row", "C97_explained"], "note": "Assumes that the tags the page makes are distinct (they are random) and that the marks can be drawn (C75)."},
{"property": "C98", "status": "partial", "theorems": ["C98_lines_partial", "C98_breaks", "C98_hiding_succeeds", "C98_return_refuted"], "note": "For programs without a carriage return inside a line. Refuted otherwise: the page counts another line, and hides the wrong one. Hiding never fails. Lines are broken exactly at LF, CR and CR LF."},
{"property": "C99", "status": "partial", "theorems": ["C99_boundaries", "C99_steps_partial", "C99_steps_refuted", "C99_pointing_refuted"], "note": "Boundaries are always up to date; tables of steps after an edit. Refuted for a second answer without an edit: a table on the same line may stay, showing the first answer, and its letters highlight nothing."},
{"property": "C100", "status": "partial", "theorems": ["C100_lines", "C100_failures", "C100_other_function", "C100_refused", "C100_complete_partial"], "note": "Every line and row is sound, and failures are classified. Shown are changes whose table is not lost (as C30 requires) and that are the only ones of their place on their line; steps that are never recorded are C61, C83, C85."},
{"property": "C101", "status": "proved", "theorems": ["C101_line", "C101_steps", "C101_shown"], "note": "A match that the compiler introduced for an iterator and that chooses nothing is allowed. That places are executed in the order of the source is a hypothesis about the compiler's output (InOrder); without it steps may be left out."},
{"property": "C102", "status": "partial", "theorems": ["C102_complete_partial", "C102_panic", "C102_truncated_refuted"], "note": "Holds for programs that get through macro expansion and on which rustc does not give up with a fatal error. Refuted for the others: the answers so far are printed as if they were all (C102_truncated_refuted, C67_rejected_refuted). Whether rustc gives up is an input of the model."},
{"property": "C103", "status": "partial", "theorems": ["C103_rounds_uint", "C103_rounds_int", "C103_exact_partial", "C103_odd_refuted", "C103_alike_refuted", "C103_one_double"], "note": "Exact below 2^53 (C103_exact_partial). The page reads numbers as doubles: every 64-bit number is shown as the shortest digits of its nearest double (C103_rounds_uint, C103_rounds_int), so every odd number beyond 2^53 is shown as another one (C103_odd_refuted) and numbers with one double look alike (C103_alike_refuted)."},
{"property": "C104", "status": "proved", "theorems": ["C104_buttons", "C104_diagrams", "C104_computed"], "note": "C104_buttons, C104_diagrams and C104_computed, for all histories from the start of the page. A run with code hidden stops later ones (C81), so the positive half of C104_diagrams is about histories without it. Assumes that the server answers each request once."},
{"property": "C105", "status": "partial", "theorems": ["C105_arrives", "C105_annotations", "C105_settings", "C105_empty_refuted", "C105_no_server", "C105_asks", "C105_optional", "C105_page", "C105_stops_refuted"], "note": "For blocks that have code: C105_page (all blocks of a chapter, in order), C105_arrives, C105_annotations (numbers below 2^53), C105_settings and C105_no_server; C105_optional: attributes that may be left out. A block without code is accepted by the preprocessor and stops the page with all blocks behind it: C105_empty_refuted, C105_stops_refuted. Assumes that the text of JSON is read back (Faithful; shown to be satisfiable by Codec.faithful) and that the attribute survives mdBook and the browser."},
{"property": "C106", "status": "partial", "theorems": ["C106_outcome", "C106_same_partial", "C106_change_refuted", "C106_rows_refuted", "C106_locations_refuted"], "note": "C106_outcome: whether and why. C106_same_partial: the same lines and rows if no visible place changes in two ways on a line, and in the same order if visible places differ by variable or depth. In general a row appears or vanishes with the order (C106_change_refuted), the rows of fields swap (C106_rows_refuted) and the locations of a line differ (C106_locations_refuted)."},
{"property": "C107", "status": "partial", "theorems": ["C107_port_iff", "C107_port_refuted", "C107_address", "C107_host_refuted", "C107_routes", "C107_default", "C107_path_refuted", "C107_other_operation"], "note": "C107_port_iff, C107_address, C107_routes, C107_default and C107_other_operation. A port that cannot be read is ignored silently (C107_port_refuted), a host name stops the server (C107_host_refuted), and the last part of the path of a server is dropped (C107_path_refuted). Addresses of version 6 are read by an oracle."},
{"property": "C108", "status": "partial", "theorems": ["C108_provenance", "C108_current", "C108_page", "C108_same", "C108_written", "C108_not_again", "C108_lost_refuted"], "note": "C108_provenance, C108_page, C108_current, C108_same, C108_written and C108_not_again, from no cache file or one that cannot be read, for all histories in which no two blocks that ask something different have the same 64-bit key. Missing: a collision (C46_collision_refuted), a new version of the tool (C66), and what was finished in a build that did not get to saving is analysed again (C108_lost_refuted). mdbook-preprocessor-utils is outside: a build may end in every way, and how a range is replaced is not modelled."},
{"property": "C109", "status": "partial", "theorems": ["C109_shown_partial", "C109_one", "C109_differ_partial", "C109_alike_partial", "C109_memory_partial", "C109_states_partial", "C109_long_refuted", "C109_chars_refuted", "C109_hidden_refuted", "C109_dead_refuted", "C109_zero_refuted", "C109_moved_refuted", "C109_scalars_partial", "C109_aim", "C109_failing"], "note": "C109_differ_partial, C109_memory_partial and C109_states_partial: values of a type that can be read off and look alike agree in all but what is not drawn; C109_alike_partial: the converse, so exactly that is not drawn; C109_shown_partial: they are drawn; C109_scalars_partial, C109_aim and C109_failing: as what they are. The full statement is false: arrays beyond 12 elements (C109_long_refuted), characters (C109_chars_refuted), capacities and lengths of vectors and strings and ends of iterators (C109_hidden_refuted), uninitialised data and freed memory (C109_dead_refuted), the two zeros (C109_zero_refuted), parts that were moved (C109_moved_refuted), and large numbers (C103)."},
{"property": "C110", "status": "partial", "theorems": ["C110_all", "C110_total", "C110_spaced_partial", "C110_centre_partial", "C110_apart_partial", "C110_single_refuted", "C110_edge_refuted", "C110_inside_refuted", "C110_colors_partial", "C110_colors_refuted", "C110_area", "C110_pale", "C110_sockets", "C110_bent", "C110_stagger_partial", "C110_stagger_refuted"], "note": "C110_all, C110_total, C110_area, C110_pale, C110_sockets and C110_bent; C110_spaced_partial, C110_centre_partial and C110_apart_partial for two or more arrows to a cell; C110_colors_partial for six arrows in a row; C110_stagger_partial. The full statement is false: a lone arrow has no height, being a quotient of nought by nought (C110_single_refuted); from five arrows on the outer ones miss the cell (C110_edge_refuted); arrows within the stack, and arrows to an element, end at one point (C110_inside_refuted); the seventh arrow has the color of the first (C110_colors_refuted); all arrows are one group, so the place among all arrows counts (C110_stagger_refuted). What LeaderLine draws is outside."},
{"property": "C111", "status": "partial", "theorems": ["C111_writes", "C111_takes", "C111_one_value", "C111_injective", "C111_reads", "C111_reads_only", "C111_escapes", "C111_single", "C111_round_trip_partial", "C111_deep_refuted", "C111_map_refuted", "C111_cut", "C111_alone", "C111_one_line", "C111_bytes", "C111_runs", "C111_page", "C111_readable", "C111_cache", "C111_book_partial"], "note": "C111_writes, C111_takes, C111_one_value, C111_injective, C111_reads, C111_reads_only, C111_escapes, C111_single, C111_cut, C111_alone, C111_one_line, C111_bytes and C111_page for all values; C111_round_trip_partial for values less than 128 deep. Deeper values are written and not read by the preprocessor (C111_deep_refuted), and one just shallow enough is read from the tool and not from the cache (C111_map_refuted). C111_runs, C111_readable, C111_cache and C111_book_partial replace the assumptions about JSON in C49, C67-C71, C105 and C108; gzip stays assumed. Floats are read exactly and written with a power of ten where serde_json writes a point. C111_escapes and C111_single: every character can be escaped in ASCII, by a pair of surrogates if need be, and single surrogates are refused, as serde_json does (JSON.parse would read them)."},
{"property": "C112", "status": "partial", "theorems": ["C112_form", "C112_one_meaning", "C112_injective", "C112_page", "C112_drawn", "C112_error", "C112_shallow_partial", "C112_response_partial", "C112_deep_refuted"], "note": "C112_form, C112_one_meaning, C112_injective, C112_page, C112_drawn and C112_error for all traces whose scalars are in the range of their types and whose indices are below 2^53. C112_shallow_partial: the preprocessor reads the answer if no value has 29 tuples, arrays and structs one in another; C112_response_partial is the bound that C111_book_partial needs. A variable with 30 structs one in another makes the answer unreadable for the preprocessor (C112_deep_refuted). That printing a double and reading it gives the double is assumed (Prints). Names are of ASCII characters."},
{"property": "C113", "status": "proved", "theorems": ["C113_form", "C113_one_meaning", "C113_injective", "C113_page", "C113_reads", "C113_response", "C113_actions", "C113_order"], "note": "C113_form, C113_one_meaning, C113_injective, C113_page, C113_reads, C113_response, C113_actions and C113_order for all results whose maps have each key once, with keys below 2^32 - 1 and other numbers below 2^53. Ranges are lines and columns with a file number; texts are of characters below 256."},
{"property": "C114", "status": "proved", "theorems": ["C114_drawn", "C114_order", "C114_rows", "C114_boundaries"], "note": "C114_drawn: what the page draws of the parsed answer is what the models of C17 and C74-C78 draw of the results, and the failures are told in order; C114_rows, C114_boundaries and C114_order say what this means, for all results as in C113 and all texts on which drawing does not throw (a position outside the text; C76). Of several boundaries at one place the first is drawn (C76_hidden_refuted)."},
{"property": "C115", "status": "partial", "theorems": ["C115_whole", "C115_arm_partial", "C115_tree_partial", "C115_target", "C115_arm_refuted"], "note": "C115_whole: every execution that returns is cut by the items of the outermost collection in their order, for all bodies and all calls of the builder with executable locations. C115_arm_partial: whoever is where a branch was opened takes one of its arms, and runs through its items if no step of the arm goes back and the arm's split ends at a place everybody passes (C115_target: at the target itself). C115_tree_partial: if no step of the tree goes back, every execution that returns runs through the whole tree of segments, at every branch through the arm it took. The full statement is false for arms: a step that goes back (C25_backward_refuted) is run through by nobody (C115_arm_refuted)."},
{"property": "C116", "status": "partial", "theorems": ["C116_own", "C116_each", "C116_alone", "C116_separate", "C116_fails_partial", "C116_cleared_partial", "C116_fails_refuted", "C116_cleared_refuted", "C116_ended", "C116_timeout", "C116_crash"], "note": "C116_own, C116_each, C116_alone and C116_separate for all schedules with timeouts, left processes, kills and crashes. C116_ended, C116_timeout and C116_crash: what ended stays, what has not ended can be given up on at any time and is ended by a crash. C116_fails_partial: a run fails only if it was given up on itself, and C116_cleared_partial: no directory is left, both if no run is given up on while its `cargo new` has still to make the project. Otherwise both are false (C116_fails_refuted, C116_cleared_refuted): the late `cargo new` of a request that timed out makes its project in a directory of the same name, or makes the removed directory again. What a command answers is taken to depend on what it reads of main.rs; the directory target is not modelled."},
{"property": "C117", "status": "proved", "theorems": ["C117_answered", "C117_boundaries", "C117_uses", "C117_steps", "C117_ranges", "C117_flows", "C117_regions", "C117_changes", "C117_told"], "note": "The results of any list of functions (C96, C100) are printed (C113), parsed (C111) and drawn (C114). C117_boundaries and C117_steps: whatever is on the page is so in the facts; C117_uses: every use that is not hidden and whose place some statement tells has a boundary there; C117_told: the failures; C117_answered: what the results of a function can fail for; C117_ranges: the ranges printed with a table; C117_flows and C117_regions: what is printed of flows and regions; C117_changes: a step worth showing has its row, as far as C100_complete_partial goes. Loans and moves are those of the facts (C14, C15). The positions of bytes and spans as lines and columns are parameters (C74 for what the page makes of them)."},
{"property": "C118", "status": "partial", "theorems": ["C118_places", "C118_kept", "C118_right_partial", "C118_since", "C118_edit", "C118_late_refuted", "C118_tags_refuted"], "note": "Exact description for all histories and whatever the view keeps (C118_places, C118_kept, C118_since); right in histories in order (C118_right_partial) and for the first answer after an edit (C118_edit). Two tables on one line are equal for the view, whatever is in them: after a late answer the table of the old code stays even when the new code has been analysed (C118_late_refuted), and after a second request the tables keep the old tags, so that pointing at their letters highlights nothing (C118_tags_refuted)."},
{"property": "C119", "status": "partial", "theorems": ["C119_drawn", "C119_boundaries", "C119_rows", "C119_moves_refuted"], "note": "From the facts to the text that is lit, for every letter of every boundary (C119_boundaries) and of every row (C119_rows) of a painted function; C119_drawn: everything drawn belongs to one. The text of a loan is as in C14. Moves never light up: on a page with marks no move has a region (C119_moves_refuted; the anchor test of moves is the wrong way round, see C15, C75)."},
{"property": "C120", "status": "partial", "theorems": ["C120_arrives", "C120_states_partial", "C120_printed", "C120_marks", "C120_all", "C120_error", "C120_shown_partial", "C120_marked_partial"], "note": "The trace of C93, printed and parsed (C112), and drawn (C109). C120_states_partial: every state on the page is one of the execution, for all programs whose memory is as described in C93 (Sane); C120_printed: what is printed of the trace; C120_marks: which states are chosen by marks; C120_all: all states of the trace, in order, without marks; C120_error: the failure; C120_marked_partial: with marks, something is shown iff every mark fits a state; C120_shown_partial: a program that ends is shown, if its values can be read by the tool (Readable) and drawn (StateLegible: no value that the page has no picture for, C109) and its statements are in the text. Missing: which points of an execution have a state, as in C93 and C86; and with marks the error is said beside the last marked state, wherever the execution failed (C51_error_place_refuted)."},
{"property": "C121", "status": "partial", "theorems": ["C121_told", "C121_editor", "C121_line_ends", "C121_marks_partial", "C121_lesson_partial", "C121_book_partial"], "note": "The parser of the book (C41), the run of the tool (C50), the cache and the JSON (C111), the element of the page (C105, C108) and the drawing (C120), composed. C121_told: the answer to a block is the execution of its program; C121_editor and C121_line_ends: the editor shows the code, with any line ends; C121_marks_partial: the position of a mark is behind its text iff the text is ASCII, otherwise too far right; C121_lesson_partial: one block; C121_book_partial: all blocks of a chapter after any history of builds. Missing: the statement for programs with letters beyond ASCII is false (C121_marks_partial, C121_bytes_witness), and a carriage return in the program is excluded."},
{"property": "C122", "status": "partial", "theorems": ["C122_shows", "C122_gone", "C122_back", "C122_option_partial", "C122_option_refuted", "C122_click_refuted"], "note": "C122_shows: what is on the page after any history, and C122_gone: when nothing is; C122_back: even numbers of clicks; C122_option_partial: when the full form is first shown, from the options of the block (C105). LeaderLine may fail for any arrow at any time. The full statement is false: a click takes all states off the page, for good, if the other form cannot be drawn (C122_click_refuted; C52_drawn_iff says when), and concreteTypes=false shows the full form (C122_option_refuted)."},
{"property": "C123", "status": "partial", "theorems": ["C123_keys", "C123_copy", "C123_original", "C123_eye", "C123_report", "C123_report_refuted"], "note": "C123_keys: when a key comes to the book, from the history alone; C123_copy and C123_original: the clipboard; C123_eye: hidden lines; C123_report: which reports are sent. What the browser does with focus, listeners and keys is part of the model. The last sentence is false: a report has the program as it was when the page was loaded, not the one that the reader sees (C123_report_refuted)."},
{"property": "C124", "status": "partial", "theorems": ["C124_hidden", "C124_edit", "C124_untouched", "C124_before_refuted", "C124_undo_refuted"], "note": "C124_hidden: exactly which lines are hidden after any history, from the breaks that were kept; C124_edit: one replacement; C124_untouched: edits elsewhere. CodeMirror's mapping of positions is part of the model. False in general: a line written right in front of a hidden one is hidden instead of it (C124_before_refuted), and deleting a break and undoing it shows the line (C124_undo_refuted)."},
{"property": "C125", "status": "partial", "theorems": ["C125_tabs", "C125_texts", "C125_answer", "C125_build_card", "C125_five_seconds_partial", "C125_five_seconds_refuted", "C125_success_refuted", "C125_messages_refuted", "C125_unread_refuted"], "note": "C125_tabs, C125_texts: what is shown after any history, as iff; C125_answer: an error comes with its own error output; C125_build_card: exactly when the build error is shown; C125_five_seconds_partial: five seconds each, if they come together or five seconds apart. False in general: the clock of an earlier build error takes away a later one (C125_five_seconds_refuted), a success takes nothing away but replaces the error output (C125_success_refuted), of several internal errors only the last is shown (C125_messages_refuted), an answer that cannot be read shows nothing (C125_unread_refuted)."},
{"property": "C126", "status": "partial", "theorems": ["C126_parse", "C126_positions", "C126_all_kept", "C126_checked_partial", "C126_unchecked_refuted", "C126_bracket_refuted", "C126_letters_refuted", "C126_directory"], "note": "C126_parse: the reader of annotated files equals an inductive description of them, in both directions; C126_positions, C126_all_kept: every annotation is kept, at the bytes of its use; C126_checked_partial: a test passes iff every annotation is right, if the compiler gets as far as the analysis; C126_directory: a directory of tests. False in general: a program that the compiler gives up passes (C126_unchecked_refuted), letters without meaning are passed over (C126_letters_refuted; R-0 with a zero is in the project's tests), and an annotation behind a bracket is refused (C126_bracket_refuted)."},
{"property": "C127", "status": "partial", "theorems": ["C127_owners", "C127_uses_agree", "C127_rows_agree", "C127_views_agree_partial", "C127_dead_refuted"], "note": "C127_owners: every drawn boundary belongs to a use and every drawn row to a step; C127_uses_agree and C127_rows_agree: uses agree with uses and rows with rows, always; C127_views_agree_partial: a letter is there in a row exactly if it is filled at the use and the variable is live; the loans and the move are the same in any case. False in general: at a variable that is overwritten, as in x += 1, the boundary shows the letters and the row does not, because only the steps look at liveness (C127_dead_refuted). The witness leaves open which steps of real programs begin at the write itself."},
{"property": "C128", "status": "partial", "theorems": ["C128_start", "C128_unique", "C128_panics", "C128_children", "C128_same_answers", "C128_server", "C128_libraries_refuted", "C128_mixed_refuted", "C128_blank_refuted"], "note": "C128_start: exactly when the preprocessor starts and with what; C128_unique; C128_panics: exactly when it panics; C128_children: the variables and arguments of the tool; C128_same_answers: environments that differ only in what is set give the same answer; C128_server: the same for the server. False in general: the server passes on its own library path where the preprocessor sets it (C128_libraries_refuted), the standard library and the libraries may belong to two toolchains (C128_mixed_refuted), and a directory whose name ends with white space is lost (C128_blank_refuted). What the asked commands do is an input."},
{"property": "C129", "status": "partial", "theorems": ["C129_passes", "C129_exact", "C129_reasons", "C129_finds_back", "C129_never_past", "C129_switches_refuted", "C129_after_refuted", "C129_stops_refuted"], "note": "C129_passes: what passes is right and covers the function; C129_exact: exactly that, where the function can return from everywhere; C129_reasons: every reason named is the case, the missing locations are exactly the uncovered ones, and the walk ends; C129_finds_back: the steps that go back (C25) are found; C129_never_past: the reason about the end of a linear step does not occur for what the builder makes. False: the promised step for each target of a switch is not checked, one step over a whole function passes (C129_switches_refuted, for every function with one return); the steps into two arms cover all that follows (C129_after_refuted), so that a structure that stops there passes (C129_stops_refuted)."},
{"property": "C130", "status": "partial", "theorems": ["C130_tells", "C130_steady", "C130_names", "C130_versions", "C130_passes", "C130_boundaries", "C130_tables_refuted", "C130_order_refuted", "C130_boundary_order_refuted", "C130_same_name_refuted"], "note": "C130_tells: equal snapshots have the same rows; C130_versions: so have two versions that pass; C130_steady: the same rows give the same snapshot if no line and no place of a step occurs twice; C130_names; C130_passes; C130_boundaries: the same for the boundaries. False in general: how rows are spread over the tables of a step is lost (C130_tables_refuted), with one place twice on a line the unstable sort may give different snapshots (C130_order_refuted), and two functions of one name in a file share a stored file (C130_same_name_refuted); two boundaries at one position are left in either order (C130_boundary_order_refuted)."},
{"property": "C131", "status": "partial", "theorems": ["C131_shows", "C131_one_view", "C131_stale_refuted", "C131_again_refuted", "C131_roots_refuted", "C131_told"], "note": "C131_shows: the properties it was put on the page with are shown; C131_one_view: one view while on the page and none otherwise, for every history; C131_told: the errors, in order. False: new properties are not shown (C131_stale_refuted); when the effect is run again in one element the old traces stay (C131_again_refuted); the roots of the buttons are never given back (C131_roots_refuted)."}
]}
