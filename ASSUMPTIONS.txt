Output of Print Assumptions for the theorems of MANIFEST.json, in this order:
C01_prefix_refuted, C01_subsequence, C01_tree_text, C02_no_errors_lossless, C03_dropped_text, C03_lossless_refuted, C03_lossless_without_quotes, C04_debug_agrees, C04_debug_total, C04_debug_total_refuted, C04_release_total, C04_terminates, C05_error_bounds, C05_error_positions, C05_ordered_refuted, C06_error_tokens_reported_refuted, C06_silent_error_tokens, C07_token_forms, C07_tokens_nonempty, C08_node_identity, C09_children_tile, C09_range_source, C09_range_text, C09_root_range, C10_column_past_end_refuted, C10_fails_only_past_end, C10_monotone, C10_offset_roundtrip, C10_position, C10_position_roundtrip, C11_reported_column, C11_utf16_refuted, C12_one_module, C12_scope_and_sort, C13_named_definitions, C14_counts_all_definitions, C14_index_space_refuted, C14_one_index_space, C15_locals, C15_type_parameters_refuted, C16_chain, C16_labels, C17_direct_nesting, C17_every_label_refuted, C17_if_refuted, C18_inverse, C18_label_listed, C18_labels_refuted, C18_local_target, C18_local_target_iff, C18_locals_refuted, C18_of_block, C18_of_definition, C18_of_local, C18_of_local_reference, C18_of_reference, C19_goto_definition, C19_undefined_exact, C19_unscoped_refuted, C20_kinds_share_names_refuted, C20_nested_complete, C20_reports_sound, C20_scope_complete, C20_sibling_labels_refuted, C20_single_nesting_refuted, C20_tables_refuted, C21_block, C21_block_only_branches_refuted, C21_branch, C21_complete, C21_exact_alone, C21_name_space, C21_only_occurrences_refuted, C22_cursor_included, C22_cursor_included_refuted, C22_invalid_name_refused, C22_panics_only_at_bad_positions, C22_valid_edits, C23_comments_refuted, C23_full, C23_legend, C23_no_underflow_refuted, C23_range, C23_range_refuted, C23_strings_refuted, C23_total, C24_folding, C25_exact, C25_nested, C25_one_per_position_refuted, C26_exact, C26_nested, C27_agree, C27_incoming, C27_outgoing, C28_exact, C28_inside, C29_call_refuted, C29_exact, C29_reports, C29_results_refuted, C30_forms, C30_missing_refuted, C30_operands_exact, C30_optional_refuted, C31_comments_refuted, C31_complete, C31_effect, C31_effect_no_errors, C31_fix_complete_refuted, C31_offered, C31_panics_iff, C32_end_label_refuted, C32_formatting, C32_import_order_refuted, C32_imports_refuted, C32_program_kept, C32_range_formatting, C32_shared_refuted, C32_string_refuted, C32_tokens_kept, C33_comments_kept, C33_comments_unchanged, C33_no_panic, C33_then_refuted, C33_type_use_refuted, C34_answers_current, C34_past_irrelevant, C34_unset_panics, C35_answered, C35_closed, C35_every_request_answered_refuted, C35_goes_on, C35_no_other_response, C35_published, C35_shutdown, C35_stopped, C35_unanswered, C36_elem_keywords, C36_every_form_refuted, C36_every_reference_refuted, C36_instructions, C36_instructions_only, C36_keywords, C36_keywords_behind_paren, C36_keywords_exact, C36_numbers_refuted, C36_offers_in_scope, C36_panics_iff, C36_references_exact, C36_value_types, C37_hover, C37_nothing_for_undefined_refuted, C38_in_document, C39_document_positions_refuted, C39_lookup_panics_iff, C39_no_panic_refuted, C39_range_panics_iff, C39_safe_positions, C40_token_at_offset, C41_one_module, C42_complete_refuted, C42_document, C42_nodes, C43_field_verbatim, C43_module_verbatim, C43_range_refuted, C44_declaration, C44_panics, C45_only, C45_type_definition, C46_function, C46_leads_to_calls, C46_only, C46_panics, C46_reference, C47_agrees, C47_offers, C48_complete, C48_unambiguous, C49_again, C49_idempotent_refuted, C49_range, C49_reparses, C50_abbreviated_refuted, C50_comments_refuted, C50_formatting, C50_idempotent, C50_idempotent_comments, C51_all_offered_refuted, C51_offered, C51_only_instructions_refuted, C51_opcodes, C51_types, C51_types_unique, C52_renamed, C53_block_results_refuted, C53_regrouped, C53_same_declarations, C53_same_duplicates, C53_same_goto, C53_same_goto_module, C53_same_header, C53_same_hint, C53_same_undefined, C54_code_action, C54_completion, C54_completion_document, C54_diagnostics, C54_document_symbol, C54_find_references, C54_formatted, C54_goto_declaration, C54_goto_definition, C54_goto_type_definition, C54_hover, C54_incoming_calls, C54_inlay_hints, C54_outgoing_calls, C54_prepare_call_hierarchy, C54_prepare_rename, C54_rename, C54_respaced, C54_same_tree, C54_selection_range, C54_semantic_tokens, C55_code_action, C55_completion, C55_diagnostics, C55_document, C55_document_symbol, C55_find_references, C55_folding, C55_goto_declaration, C55_goto_definition, C55_goto_type_definition, C55_hover, C55_incoming_calls, C55_inlay_hints, C55_lines, C55_outgoing_calls, C55_prepare_call_hierarchy, C55_prepare_rename, C55_rename, C55_rename_back, C55_rename_places, C55_rename_refuted, C55_rename_undone, C55_selection_range, C55_semantic_tokens, C56_accepts, C56_accepts_refuted, C56_blocks_refuted, C56_line_valid, C56_sound, C56_sound_folded, C56_sound_refuted, C57_applied_once, C57_code_action, C57_formatting, C57_formatting_again, C57_range_formatting, C57_rename, C58_formatting, C58_layout, C58_range, C58_trailing_blanks_refuted, C58_width, C59_accepted, C59_accepted_label, C59_accepted_local, C59_document, C59_label, C59_label_refuted, C59_local, C59_module, C59_others, C59_others_reported, C60_join_split, C60_split_join, C60_split_join_back, C60_text_back_refuted

Each of the 282: Closed under the global context
