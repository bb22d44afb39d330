c("C01","proved",["C01_tree_text","C01_subsequence","C01_prefix_refuted"],"The stronger prefix claim is refuted by C01_prefix_refuted.")
c("C02","proved",["C02_no_errors_lossless"])
c("C03","proved",["C03_dropped_text","C03_lossless_without_quotes","C03_lossless_refuted"],"Losslessness for every source is refuted.")
c("C04","proved",["C04_release_total","C04_terminates","C04_debug_agrees","C04_debug_total","C04_debug_total_refuted"],"Debug builds can panic; the witness and a sufficient condition for safety are proved.")
c("C05","proved",["C05_error_positions","C05_error_bounds","C05_ordered_refuted"],"Start may exceed end (refuted).")
c("C06","proved",["C06_silent_error_tokens","C06_error_tokens_reported_refuted"],"The stronger claim is refuted.")
c("C07","proved",["C07_token_forms","C07_tokens_nonempty"])
c("C08","proved",["C08_node_identity"])
c("C09","proved",["C09_children_tile","C09_root_range","C09_range_text","C09_range_source"])
c("C10","proved",["C10_position","C10_offset_roundtrip","C10_fails_only_past_end","C10_position_roundtrip","C10_monotone","C10_column_past_end_refuted"],"Columns beyond the end of their line are not clamped (refuted).")
c("C11","proved",["C11_reported_column","C11_utf16_refuted"],"Columns are bytes, so the UTF-16 claim is refuted; what is reported is characterised.")
c("C39","proved",["C39_lookup_panics_iff","C39_safe_positions","C39_no_panic_refuted","C39_document_positions_refuted","C39_range_panics_iff"],"The exact set of panicking positions is proved; the claim that nothing panics is refuted.")
c("C40","proved",["C40_token_at_offset"])
c("C12","proved",["C12_scope_and_sort","C12_one_module"])
c("C13","proved",["C13_named_definitions","C15_locals","C16_labels"],"Module-level references; locals and labels by C15 and C16.")
c("C14","proved",["C14_counts_all_definitions","C14_one_index_space","C14_index_space_refuted"],"Counting within the own index space is refuted.")
c("C15","proved",["C15_locals","C15_type_parameters_refuted"],"Counting the parameters of a referenced type is refuted.")
c("C16","proved",["C16_labels","C16_chain"])
c("C17","proved",["C17_direct_nesting","C17_every_label_refuted","C17_if_refuted"],"The claim for every nesting is refuted.")
c("C18","proved",["C18_of_definition","C18_of_reference","C18_inverse","C18_of_local","C18_of_local_reference","C18_local_target","C18_local_target_iff","C18_of_block","C18_label_listed","C18_locals_refuted","C18_labels_refuted"],"The unrestricted claims for locals and labels are refuted.")
c("C21","proved",["C21_name_space","C21_block","C21_branch","C21_complete","C21_exact_alone","C21_only_occurrences_refuted","C21_block_only_branches_refuted"],"That only occurrences are edited is refuted.")
c("C22","proved",["C22_valid_edits","C22_invalid_name_refused","C22_panics_only_at_bad_positions","C22_cursor_included","C22_cursor_included_refuted"],"Module names and identifiers after end are not included (refuted).")
c("C38","proved",["C38_in_document"])
c("C19","proved",["C19_undefined_exact","C19_goto_definition","C19_unscoped_refuted"],"References outside their scope are not reported (refuted).")
c("C41","proved",["C41_one_module"])
c("C20","proved",["C20_reports_sound","C20_scope_complete","C20_nested_complete","C20_kinds_share_names_refuted","C20_sibling_labels_refuted","C20_tables_refuted","C20_single_nesting_refuted"],"Agreement with the name spaces of WebAssembly is refuted.")
c("C30","proved",["C30_operands_exact","C30_forms","C30_missing_refuted","C30_optional_refuted"],"Reporting of missing operands is refuted.")
c("C29","proved",["C29_exact","C29_reports","C29_results_refuted","C29_call_refuted"],"Checking of declared results and of calls to imported functions is refuted.")
c("C24","proved",["C24_folding"],"")
c("C25","proved",["C25_exact","C25_nested","C25_one_per_position_refuted"],"One selection per position is refuted.")
c("C26","proved",["C26_exact","C26_nested"],"")
c("C27","proved",["C27_outgoing","C27_incoming","C27_agree"],"")
c("C28","proved",["C28_exact","C28_inside"],"")
c("C36","proved",["C36_references_exact","C36_offers_in_scope","C36_keywords","C36_keywords_exact","C36_elem_keywords","C36_keywords_behind_paren","C36_instructions","C36_instructions_only","C36_value_types","C36_panics_iff","C36_every_reference_refuted","C36_numbers_refuted","C36_every_form_refuted"],"That every reference position and every place of an instruction is completed and that numbers offered are indices is refuted.")
c("C37","proved",["C37_hover","C37_nothing_for_undefined_refuted"],"Tokens of labels, memories and tables show nothing; that an undefined name shows nothing is refuted.")
c("C23","proved",["C23_full","C23_range","C23_legend","C23_total","C23_strings_refuted","C23_no_underflow_refuted","C23_comments_refuted","C23_range_refuted"],"The unrestricted claim is refuted.")
c("C42","proved",["C42_nodes","C42_document","C42_complete_refuted"],"Soundness with respect to the productions; acceptance of every such document is refuted.")
c("C31","proved",["C31_offered","C31_complete","C31_effect","C31_effect_no_errors","C31_panics_iff","C31_comments_refuted","C31_fix_complete_refuted"],"That comments survive and that every misspelt memory argument is fixed is refuted.")
c("C34","proved",["C34_answers_current","C34_past_irrelevant","C34_unset_panics"])
c("C35","proved",["C35_answered","C35_no_other_response","C35_published","C35_closed","C35_goes_on","C35_stopped","C35_shutdown","C35_unanswered","C35_every_request_answered_refuted"],"That every request is answered is refuted.")
c("C32","proved",["C32_tokens_kept","C32_program_kept","C32_formatting","C32_range_formatting","C32_shared_refuted","C32_imports_refuted","C32_import_order_refuted","C32_end_label_refuted","C32_string_refuted"],"For documents in ordinary form; what is lost otherwise is refuted by witnesses.")
c("C33","proved",["C33_comments_kept","C33_comments_unchanged","C33_no_panic","C32_tokens_kept","C33_type_use_refuted","C33_then_refuted"],"C32_tokens_kept states exactly which comments are kept; that all are is refuted.")
c("C43","proved",["C43_module_verbatim","C43_field_verbatim","C43_range_refuted"],"That range formatting respects the directive is refuted.")
c("C44","proved",["C44_declaration","C44_panics"])
c("C45","proved",["C45_type_definition","C45_only"])
c("C46","proved",["C46_function","C46_reference","C46_only","C46_panics","C46_leads_to_calls"])
c("C47","proved",["C47_offers","C47_agrees"])
c("C48","proved",["C48_complete","C48_unambiguous"],"For the grammar of SpecComplete.v; see C42 for the converse.")
c("C49","proved",["C49_reparses","C49_range","C49_again","C49_idempotent_refuted"],"That formatting twice is formatting once is refuted; see C50.")
c("C50","proved",["C50_idempotent","C50_idempotent_comments","C50_formatting","C50_comments_refuted","C50_abbreviated_refuted"],"C50_idempotent is the case without comments, for any settings; C50_idempotent_comments allows comments; C50_formatting is about the request. C49_idempotent_refuted shows that the condition on type uses is needed.")
c("C51","proved",["C51_types","C51_types_unique","C51_opcodes","C51_offered","C51_only_instructions_refuted","C51_all_offered_refuted"],"That exactly the instructions are offered is refuted.")
c("C52","proved",["C52_renamed"])
c("C53","proved",["C53_regrouped","C53_same_declarations","C53_same_goto","C53_same_goto_module","C53_same_undefined","C53_same_header","C53_same_hint","C53_same_duplicates","C53_block_results_refuted"],"That it holds for results of block types is refuted.")
c("C54","proved",["C54_same_tree","C54_respaced","C54_diagnostics","C54_goto_definition","C54_goto_declaration","C54_goto_type_definition","C54_find_references","C54_formatted","C54_prepare_rename","C54_rename","C54_document_symbol","C54_prepare_call_hierarchy","C54_incoming_calls","C54_outgoing_calls","C54_inlay_hints","C54_semantic_tokens","C54_selection_range","C54_hover","C54_completion","C54_code_action","C54_completion_document"])
c("C55","proved",["C55_document","C55_diagnostics","C55_goto_definition","C55_goto_declaration","C55_goto_type_definition","C55_find_references","C55_rename","C55_rename_refuted","C55_prepare_rename","C55_rename_places","C55_document_symbol","C55_prepare_call_hierarchy","C55_incoming_calls","C55_outgoing_calls","C55_inlay_hints","C55_semantic_tokens","C55_selection_range","C55_hover","C55_completion","C55_code_action","C55_lines","C55_folding","C55_rename_undone","C55_rename_back"])
c("C56","proved",["C56_accepts","C56_accepts_refuted","C56_blocks_refuted","C56_line_valid","C56_sound","C56_sound_folded","C56_sound_refuted"])
c("C57","proved",["C57_applied_once","C57_formatting","C57_range_formatting","C57_formatting_again","C57_rename","C57_code_action"])
c("C58","proved",["C58_layout","C58_formatting","C58_range","C58_width","C58_trailing_blanks_refuted"],"That no line ends in a blank is refuted.")
c("C59","proved",["C59_document","C59_module","C59_local","C59_label","C59_accepted","C59_accepted_local","C59_accepted_label","C59_others","C59_others_reported","C59_label_refuted"],"That every offered label can be gone to is refuted.")
c("C60","proved",["C60_split_join","C60_join_split","C60_split_join_back","C60_text_back_refuted"],"That the text always comes back is refuted: other white space and comments in the group are lost.")
