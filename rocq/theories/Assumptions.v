(** * Assumptions: what the theorems of MANIFEST.json rest on.  Generated by tools/manifest.py.

    Per file, all its theorems are put into one tuple; [Print Assumptions] of the tuple lists the axioms that any
    of them uses.  Each prints [Closed under the global context]. *)
From Verif Require PropAfresh PropAlpha PropAmid PropApi PropAtLeast PropBlame PropChanging PropChars PropClient PropComplete PropConstants PropData PropDisk PropDrop PropEdit PropErrEq PropFault PropFieldNames PropFiles PropFirst PropFlat PropHeader PropHistory PropIds PropInclude PropLang PropLayout PropLex PropLit PropLoad PropMove PropMsg PropNames PropOps PropPath PropRefactor PropReorg PropReplace PropRevalue PropRound PropRuntime PropScope PropShare PropSize PropStack PropStep PropStream PropText PropType PropWalk PropWork PropWritten.

Definition of_PropAfresh :=
  (@Verif.PropAfresh.C67_str,
   @Verif.PropAfresh.C67_file,
   @Verif.PropAfresh.C67_str_back,
   @Verif.PropAfresh.C67_file_back,
   @Verif.PropAfresh.C67_str_iff,
   @Verif.PropAfresh.C67_file_iff,
   @Verif.PropAfresh.C67_depth,
   @Verif.PropAfresh.C67_anywhere,
   @Verif.PropAfresh.C67_two_kinds_refuted).
Print Assumptions of_PropAfresh.

Definition of_PropAlpha :=
  (@Verif.PropAlpha.C57_str,
   @Verif.PropAlpha.C57_file).
Print Assumptions of_PropAlpha.

Definition of_PropAmid :=
  (@Verif.PropAmid.C71_as_seen,
   @Verif.PropAmid.C71_loaded,
   @Verif.PropAmid.C71_ends,
   @Verif.PropAmid.C71_always_there,
   @Verif.PropAmid.C71_nothing_changes,
   @Verif.PropAmid.C71_changing_link_refuted).
Print Assumptions of_PropAmid.

Definition of_PropApi :=
  (@Verif.PropApi.C44_native_eq_is_value_eq,
   @Verif.PropApi.C44_native_eq_same_data,
   @Verif.PropApi.C44_conversion_keeps_the_data,
   @Verif.PropApi.C44_integers_across_widths,
   @Verif.PropApi.C44_native_ranges,
   @Verif.PropApi.C44_one_class,
   @Verif.PropApi.C45_with_each_is_fold,
   @Verif.PropApi.C45_arr_views,
   @Verif.PropApi.C45_tup_views,
   @Verif.PropApi.C45_obj_views,
   @Verif.PropApi.C45_double_ended_iteration,
   @Verif.PropApi.C45_from_vec,
   @Verif.PropApi.C45_empty_containers,
   @Verif.PropApi.C46_arr_macro,
   @Verif.PropApi.C46_tup_macro,
   @Verif.PropApi.C46_int_macro,
   @Verif.PropApi.C46_obj_macro,
   @Verif.PropApi.C46_frac_macro).
Print Assumptions of_PropApi.

Definition of_PropAtLeast :=
  (@Verif.PropAtLeast.C79_at_least).
Print Assumptions of_PropAtLeast.

Definition of_PropBlame :=
  (@Verif.PropBlame.C52_refused_iff_fault,
   @Verif.PropBlame.C52_file_refused_iff_fault,
   @Verif.PropBlame.C52_one_fault,
   @Verif.PropBlame.C52_accepted_iff_no_fault,
   @Verif.PropBlame.C52_no_files).
Print Assumptions of_PropBlame.

Definition of_PropChanging :=
  (@Verif.PropChanging.C68_snapshot_exists,
   @Verif.PropChanging.C68_only_that_moment_counts,
   @Verif.PropChanging.C68_returns,
   @Verif.PropChanging.C68_results,
   @Verif.PropChanging.C68_opened_once,
   @Verif.PropChanging.C68_unnoticed,
   @Verif.PropChanging.C68_nothing_changes,
   @Verif.PropChanging.C68_removed_file_panics).
Print Assumptions of_PropChanging.

Definition of_PropChars :=
  (@Verif.PropChars.C26_white_space,
   @Verif.PropChars.C26_gaps,
   @Verif.PropChars.C51_blank_chars,
   @Verif.PropChars.C51_closing_chars,
   @Verif.PropChars.C51_end_chars,
   @Verif.PropChars.C51_digit_chars,
   @Verif.PropChars.C51_number_chars,
   @Verif.PropChars.C19_escapes,
   @Verif.PropChars.C20_letters,
   @Verif.PropChars.C16_operator_chars).
Print Assumptions of_PropChars.

Definition of_PropClient :=
  (@Verif.PropClient.C78_clients,
   @Verif.PropClient.C78_equal_iff_not_told_apart,
   @Verif.PropClient.C78_calls,
   @Verif.PropClient.C78_identity_refuted,
   @Verif.PropClient.C78_unchecked_refuted,
   @Verif.PropClient.C78_eq_containers).
Print Assumptions of_PropClient.

Definition of_PropComplete :=
  (@Verif.PropComplete.C41_accepted_iff,
   @Verif.PropComplete.C41_rejected_iff,
   @Verif.PropComplete.C41_not_in_grammar,
   @Verif.PropComplete.C41_accepted_file_iff,
   @Verif.PropComplete.C41_included,
   @Verif.PropComplete.C42_one_reading,
   @Verif.PropComplete.C42_one_reading_of_lists,
   @Verif.PropComplete.C42_one_reading_of_values,
   @Verif.PropComplete.C42_accepted,
   @Verif.PropComplete.C20_accepted).
Print Assumptions of_PropComplete.

Definition of_PropConstants :=
  (@Verif.PropConstants.C76_str,
   @Verif.PropConstants.C76_error,
   @Verif.PropConstants.C76_file,
   @Verif.PropConstants.C76_project_str,
   @Verif.PropConstants.C76_project_file,
   @Verif.PropConstants.C76_sum_before_product_refuted,
   @Verif.PropConstants.C76_kind_refuted).
Print Assumptions of_PropConstants.

Definition of_PropData :=
  (@Verif.PropData.C10_most_specific_is_lub,
   @Verif.PropData.C10_most_specific_comm,
   @Verif.PropData.C10_most_specific_idem,
   @Verif.PropData.C10_most_specific_any_neutral,
   @Verif.PropData.C10_most_specific_assoc,
   @Verif.PropData.C11_type_eq_is_compatibility,
   @Verif.PropData.C11_type_eq_refl_sym,
   @Verif.PropData.C11_type_eq_transitive_refuted,
   @Verif.PropData.C11_type_eq_without_any,
   @Verif.PropData.C11_is_is_identity,
   @Verif.PropData.C09_from_values_accepts_iff,
   @Verif.PropData.C09_from_values_result,
   @Verif.PropData.C09_from_values_error,
   @Verif.PropData.C09_from_values_order_irrelevant,
   @Verif.PropData.C12_eq_is_same_data,
   @Verif.PropData.C12_eq_equivalence,
   @Verif.PropData.C12_eq_same_type_and_text,
   @Verif.PropData.C12_checked_constructors_wf,
   @Verif.PropData.C12_unchecked_transitive_refuted,
   @Verif.PropData.C14_get_nearest_in_chain,
   @Verif.PropData.C14_get_none_iff,
   @Verif.PropData.C14_get_with_source_agrees,
   @Verif.PropData.C14_own_fields_only,
   @Verif.PropData.C15_typed_getters,
   @Verif.PropData.C15_is_null,
   @Verif.PropData.C15_get_frac,
   @Verif.PropData.C29_index_bounds_checked,
   @Verif.PropData.C31_is_valid_field_iff,
   @Verif.PropData.C31_from_pairs,
   @Verif.PropData.C31_api_accepts_unparseable,
   @Verif.PropData.C31_legal_is_api,
   @Verif.PropData.C31_try_obj,
   @Verif.PropData.C32_native_int_comparison_exact,
   @Verif.PropData.C33_writing_never_panics,
   @Verif.PropData.C33_equal_objs_same_text).
Print Assumptions of_PropData.

Definition of_PropDisk :=
  (@Verif.PropDisk.C35_write_then_load,
   @Verif.PropDisk.C35_crash,
   @Verif.PropDisk.C35_crash_contents,
   @Verif.PropDisk.C35_every_prefix,
   @Verif.PropDisk.C35_silent_loss,
   @Verif.PropDisk.C35_error_not_atomic,
   @Verif.PropDisk.C35_can_succeed).
Print Assumptions of_PropDisk.

Definition of_PropDrop :=
  (@Verif.PropDrop.C65_drop_is_right,
   @Verif.PropDrop.C65_enough,
   @Verif.PropDrop.C65_needed,
   @Verif.PropDrop.C65_loaded,
   @Verif.PropDrop.C65_in_memory,
   @Verif.PropDrop.C65_overflow).
Print Assumptions of_PropDrop.

Definition of_PropEdit :=
  (@Verif.PropEdit.C75_str,
   @Verif.PropEdit.C75_plain,
   @Verif.PropEdit.C75_file,
   @Verif.PropEdit.C75_get,
   @Verif.PropEdit.C75_none,
   @Verif.PropEdit.C75_edited_only_refuted).
Print Assumptions of_PropEdit.

Definition of_PropErrEq :=
  (@Verif.PropErrEq.C66_error_eq,
   @Verif.PropErrEq.C66_refl_sym,
   @Verif.PropErrEq.C66_transitive_refuted,
   @Verif.PropErrEq.C66_exact_without_any,
   @Verif.PropErrEq.C66_same_message,
   @Verif.PropErrEq.C66_equal_but_other_message_refuted,
   @Verif.PropErrEq.C66_load_errors,
   @Verif.PropErrEq.C66_pair_eq).
Print Assumptions of_PropErrEq.

Definition of_PropFault :=
  (@Verif.PropFault.C51_error_names_the_fault,
   @Verif.PropFault.C51_file,
   @Verif.PropFault.C51_one_fault,
   @Verif.PropFault.C51_line_bracket,
   @Verif.PropFault.C51_line_duplicate,
   @Verif.PropFault.C51_line_no_value,
   @Verif.PropFault.C51_line_bad_char,
   @Verif.PropFault.C51_line_unclosed,
   @Verif.PropFault.C51_line_unknown,
   @Verif.PropFault.C51_line_dot,
   @Verif.PropFault.C51_line_member,
   @Verif.PropFault.C51_line_index,
   @Verif.PropFault.C51_line_by_zero,
   @Verif.PropFault.C51_line_types,
   @Verif.PropFault.C51_line_mod,
   @Verif.PropFault.C51_line_sign,
   @Verif.PropFault.C51_line_array,
   @Verif.PropFault.C51_line_parent,
   @Verif.PropFault.C51_line_include).
Print Assumptions of_PropFault.

Definition of_PropFieldNames :=
  (@Verif.PropFieldNames.C74_exchanged,
   @Verif.PropFieldNames.C74_alone,
   @Verif.PropFieldNames.C74_no_files,
   @Verif.PropFieldNames.C74_str,
   @Verif.PropFieldNames.C74_file,
   @Verif.PropFieldNames.C74_rename_refuted).
Print Assumptions of_PropFieldNames.

Definition of_PropFiles :=
  (@Verif.PropFiles.C56_more_files,
   @Verif.PropFiles.C56_edit,
   @Verif.PropFiles.C56_same_text,
   @Verif.PropFiles.C56_only_opened,
   @Verif.PropFiles.C56_only_opened_results,
   @Verif.PropFiles.C26_file,
   @Verif.PropFiles.C25_every_file,
   @Verif.PropFiles.C41_file_brackets,
   @Verif.PropFiles.C27_every_file,
   @Verif.PropFiles.C50_file).
Print Assumptions of_PropFiles.

Definition of_PropFirst :=
  (@Verif.PropFirst.C73_text,
   @Verif.PropFirst.C73_text_repair,
   @Verif.PropFirst.C73_file,
   @Verif.PropFirst.C73_file_repair).
Print Assumptions of_PropFirst.

Definition of_PropFlat :=
  (@Verif.PropFlat.C82_get,
   @Verif.PropFlat.C82_values,
   @Verif.PropFlat.C82_names,
   @Verif.PropFlat.C82_no_parents,
   @Verif.PropFlat.C82_legal,
   @Verif.PropFlat.C82_written,
   @Verif.PropFlat.C82_told_apart).
Print Assumptions of_PropFlat.

Definition of_PropHeader :=
  (@Verif.PropHeader.C72_text,
   @Verif.PropHeader.C72_file,
   @Verif.PropHeader.C72_top).
Print Assumptions of_PropHeader.

Definition of_PropHistory :=
  (@Verif.PropHistory.C34_from_str,
   @Verif.PropHistory.C34_from_file,
   @Verif.PropHistory.C40_result_is_new,
   @Verif.PropHistory.C40_loads_share_nothing,
   @Verif.PropHistory.C48_interference_invisible,
   @Verif.PropHistory.C48_load_is_interference,
   @Verif.PropHistory.C48_shares_nothing).
Print Assumptions of_PropHistory.

Definition of_PropIds :=
  (@Verif.PropIds.C79_str,
   @Verif.PropIds.C79_file,
   @Verif.PropIds.C79_str_disk,
   @Verif.PropIds.C79_keywords,
   @Verif.PropIds.C79_process,
   @Verif.PropIds.C79_no_wrap,
   @Verif.PropIds.C79_data).
Print Assumptions of_PropIds.

Definition of_PropInclude :=
  (@Verif.PropInclude.C43_str,
   @Verif.PropInclude.C43_file,
   @Verif.PropInclude.C43_one_value,
   @Verif.PropInclude.C43_error,
   @Verif.PropInclude.C43_not_itself,
   @Verif.PropInclude.C43_no_file,
   @Verif.PropInclude.C43_globals).
Print Assumptions of_PropInclude.

Definition of_PropLang :=
  (@Verif.PropLang.C39_load_is_meaning,
   @Verif.PropLang.C39_load_file_is_meaning,
   @Verif.PropLang.C16_one_reading,
   @Verif.PropLang.C16_precedence,
   @Verif.PropLang.C16_unary,
   @Verif.PropLang.C17_exact,
   @Verif.PropLang.C17_number_errors,
   @Verif.PropLang.C17_other_types,
   @Verif.PropLang.C17_in_documents).
Print Assumptions of_PropLang.

Definition of_PropLayout :=
  (@Verif.PropLayout.C54_written_lines,
   @Verif.PropLayout.C54_display,
   @Verif.PropLayout.C54_obj_display,
   @Verif.PropLayout.C54_arr_tup_display,
   @Verif.PropLayout.C54_lines_are_lines,
   @Verif.PropLayout.C54_empty).
Print Assumptions of_PropLayout.

Definition of_PropLex :=
  (@Verif.PropLex.C26_replace,
   @Verif.PropLex.C26_start,
   @Verif.PropLex.C26_end,
   @Verif.PropLex.C41_brackets_closed,
   @Verif.PropLex.C41_unclosed_rejected,
   @Verif.PropLex.C25_every_text,
   @Verif.PropLex.C27_every_text,
   @Verif.PropLex.C27_no_name_twice).
Print Assumptions of_PropLex.

Definition of_PropLit :=
  (@Verif.PropLit.C18_literal,
   @Verif.PropLit.C18_load,
   @Verif.PropLit.C18_errors,
   @Verif.PropLit.C19_load,
   @Verif.PropLit.C19_errors,
   @Verif.PropLit.C19_quoting_inverse,
   @Verif.PropLit.C19_round_trip).
Print Assumptions of_PropLit.

Definition of_PropLoad :=
  (@Verif.PropLoad.C03_from_str_returns,
   @Verif.PropLoad.C03_from_file_returns,
   @Verif.PropLoad.C04_loading_terminates,
   @Verif.PropLoad.C04_larger_budget_same_result,
   @Verif.PropLoad.C05_from_str_error_names_line,
   @Verif.PropLoad.C05_from_file_error_names_line,
   @Verif.PropLoad.C05_no_bigint_error,
   @Verif.PropLoad.C06_from_str_error_located,
   @Verif.PropLoad.C06_from_file_error_located,
   @Verif.PropLoad.C07_loaded_field_names,
   @Verif.PropLoad.C07_loaded_tups_and_fracs,
   @Verif.PropLoad.C08_loaded_arrays,
   @Verif.PropLoad.C21_no_global_field,
   @Verif.PropLoad.C22_cyclic_include_rejected,
   @Verif.PropLoad.C22_never_reopened_in_progress,
   @Verif.PropLoad.C23_each_file_opened_once,
   @Verif.PropLoad.C23_includes_share,
   @Verif.PropLoad.C24_first_include_kind,
   @Verif.PropLoad.C24_later_include_keeps_first_value,
   @Verif.PropLoad.C23_include_is_logged,
   @Verif.PropLoad.C03_no_canonical_path_panics,
   @Verif.PropLoad.C05_io_error_in_include_has_no_line,
   @Verif.PropLoad.C06_newline_position_refuted,
   @Verif.PropLoad.C24_later_keyword_ignored).
Print Assumptions of_PropLoad.

Definition of_PropMove :=
  (@Verif.PropMove.C61_to_file_str,
   @Verif.PropMove.C61_from_file_str,
   @Verif.PropMove.C61_to_file_file,
   @Verif.PropMove.C61_from_file_file).
Print Assumptions of_PropMove.

Definition of_PropMsg :=
  (@Verif.PropMsg.C53_type_names,
   @Verif.PropMsg.C53_type_words,
   @Verif.PropMsg.C53_decimal,
   @Verif.PropMsg.C53_api_messages,
   @Verif.PropMsg.C53_same_message_same_fault,
   @Verif.PropMsg.C53_file,
   @Verif.PropMsg.C53_message_determines_fault,
   @Verif.PropMsg.C53_texts,
   @Verif.PropMsg.C53_api_texts).
Print Assumptions of_PropMsg.

Definition of_PropNames :=
  (@Verif.PropNames.C21_include_isolated,
   @Verif.PropNames.C21_global_stays,
   @Verif.PropNames.C21_redefinition_is_error,
   @Verif.PropNames.C21_nested_redefinition_is_error,
   @Verif.PropNames.C21_visible_once_defined,
   @Verif.PropNames.C30_dot_is_own_field,
   @Verif.PropNames.C30_dot_in_texts,
   @Verif.PropNames.C37_keyword_is_empty_obj,
   @Verif.PropNames.C37_variable_acts_as_keyword,
   @Verif.PropNames.C37_ordinary_obj_is_no_keyword,
   @Verif.PropNames.C37_process_ok,
   @Verif.PropNames.C27_written_in_order,
   @Verif.PropNames.C21_definition_inside_itself_is_lost,
   @Verif.PropNames.C30_inherited_field_not_found).
Print Assumptions of_PropNames.

Definition of_PropOps :=
  (@Verif.PropOps.C28_arrays,
   @Verif.PropOps.C28_strings,
   @Verif.PropOps.C28_in_documents,
   @Verif.PropOps.C28_well_formed,
   @Verif.PropOps.C28_associative,
   @Verif.PropOps.C28_neutral,
   @Verif.PropOps.C25_limit,
   @Verif.PropOps.C25_never_deeper,
   @Verif.PropOps.C25_brackets,
   @Verif.PropOps.C25_signs_not_limited,
   @Verif.PropOps.C25_signs_recursion,
   @Verif.PropOps.C29_dot_index,
   @Verif.PropOps.C29_dot_in_texts,
   @Verif.PropOps.C29_dot_by_field).
Print Assumptions of_PropOps.

Definition of_PropPath :=
  (@Verif.PropPath.C49_segments,
   @Verif.PropPath.C49_absolute,
   @Verif.PropPath.C49_relative,
   @Verif.PropPath.C49_same_directory,
   @Verif.PropPath.C49_no_parent,
   @Verif.PropPath.C49_included_file).
Print Assumptions of_PropPath.

Definition of_PropRefactor :=
  (@Verif.PropRefactor.C62_str,
   @Verif.PropRefactor.C62_file,
   @Verif.PropRefactor.C62_get,
   @Verif.PropRefactor.C62_eq,
   @Verif.PropRefactor.C63_global_str,
   @Verif.PropRefactor.C63_field_str,
   @Verif.PropRefactor.C63_file,
   @Verif.PropRefactor.C64_name_str,
   @Verif.PropRefactor.C64_inline_str,
   @Verif.PropRefactor.C64_name_file,
   @Verif.PropRefactor.C64_inline_file,
   @Verif.PropRefactor.C64_any_definition_refuted).
Print Assumptions of_PropRefactor.

Definition of_PropReorg :=
  (@Verif.PropReorg.C70_file,
   @Verif.PropReorg.C70_str,
   @Verif.PropReorg.C70_unchanged,
   @Verif.PropReorg.C70_moved,
   @Verif.PropReorg.C70_steps,
   @Verif.PropReorg.C70_alone_refuted).
Print Assumptions of_PropReorg.

Definition of_PropReplace :=
  (@Verif.PropReplace.C69_file,
   @Verif.PropReplace.C69_str,
   @Verif.PropReplace.C69_file_iff,
   @Verif.PropReplace.C69_str_iff,
   @Verif.PropReplace.C69_same_data,
   @Verif.PropReplace.C69_written,
   @Verif.PropReplace.C69_keyword_refuted).
Print Assumptions of_PropReplace.

Definition of_PropRevalue :=
  (@Verif.PropRevalue.C80_paths,
   @Verif.PropRevalue.C80_str,
   @Verif.PropRevalue.C80_loads,
   @Verif.PropRevalue.C80_loads_iff,
   @Verif.PropRevalue.C80_file,
   @Verif.PropRevalue.C80_project_loads,
   @Verif.PropRevalue.C80_project,
   @Verif.PropRevalue.C80_division_refuted,
   @Verif.PropRevalue.C80_int_refuted).
Print Assumptions of_PropRevalue.

Definition of_PropRound :=
  (@Verif.PropRound.C01_write_load,
   @Verif.PropRound.C01_too_deep,
   @Verif.PropRound.C02_reload,
   @Verif.PropRound.C02_loads_any_depth,
   @Verif.PropRound.C02_unconditional_refuted,
   @Verif.PropRound.C33_rewriting_is_stable,
   @Verif.PropRound.C36_display_is_value_literal,
   @Verif.PropRound.C36_too_deep,
   @Verif.PropRound.C01_from_pairs_names_refuted).
Print Assumptions of_PropRound.

Definition of_PropRuntime :=
  (@Verif.PropRuntime.C13_ids_in_order,
   @Verif.PropRuntime.C13_unique,
   @Verif.PropRuntime.C13_each_id_used_once,
   @Verif.PropRuntime.C13_wraps,
   @Verif.PropRuntime.C13_wrap_reached,
   @Verif.PropRuntime.C38_num_references,
   @Verif.PropRuntime.C38_quiescent,
   @Verif.PropRuntime.C38_no_dangling,
   @Verif.PropRuntime.C38_freed,
   @Verif.PropRuntime.C38_ptr_eq,
   @Verif.PropRuntime.C38_no_leak,
   @Verif.PropRuntime.C38_drops_finish).
Print Assumptions of_PropRuntime.

Definition of_PropScope :=
  (@Verif.PropScope.C20_names_in_scope,
   @Verif.PropScope.C20_undefined_is_error,
   @Verif.PropScope.C20_names_in_scope_file,
   @Verif.PropScope.C20_literal_is_closed,
   @Verif.PropScope.C20_variable_is_earlier_field_nested,
   @Verif.PropScope.C20_variable_is_earlier_field,
   @Verif.PropScope.C26_layout_irrelevant,
   @Verif.PropScope.C27_field_order,
   @Verif.PropScope.C27_field_order_nested).
Print Assumptions of_PropScope.

Definition of_PropShare :=
  (@Verif.PropShare.C60_same_instance,
   @Verif.PropShare.C60_kinds_apart,
   @Verif.PropShare.C60_no_cycles,
   @Verif.PropShare.C60_two_loads,
   @Verif.PropShare.C60_literal_is_new,
   @Verif.PropShare.C60_name_is_shared,
   @Verif.PropShare.C60_sum_is_new).
Print Assumptions of_PropShare.

Definition of_PropSize :=
  (@Verif.PropSize.C77_str,
   @Verif.PropSize.C77_file,
   @Verif.PropSize.C77_str_disk,
   @Verif.PropSize.C77_file_disk,
   @Verif.PropSize.C77_text,
   @Verif.PropSize.C77_ints_get_this_large).
Print Assumptions of_PropSize.

Definition of_PropStack :=
  (@Verif.PropStack.C55_bounded,
   @Verif.PropStack.C55_includes,
   @Verif.PropStack.C55_file,
   @Verif.PropStack.C55_dies_or_agrees,
   @Verif.PropStack.C55_any_text,
   @Verif.PropStack.C55_types_needed,
   @Verif.PropStack.C55_types_overflow,
   @Verif.PropStack.C55_signs_overflow).
Print Assumptions of_PropStack.

Definition of_PropStep :=
  (@Verif.PropStep.C20_line,
   @Verif.PropStep.C20_line_inside,
   @Verif.PropStep.C17_line,
   @Verif.PropStep.C17_line_other_types,
   @Verif.PropStep.C28_line,
   @Verif.PropStep.C16_line_sign,
   @Verif.PropStep.C29_line,
   @Verif.PropStep.C29_line_by_field,
   @Verif.PropStep.C30_line,
   @Verif.PropStep.C30_line_path,
   @Verif.PropStep.C08_line).
Print Assumptions of_PropStep.

Definition of_PropStream :=
  (@Verif.PropStream.C47_streams_are_safe_and_exact,
   @Verif.PropStream.C47_buffers_live_as_long_as_handles,
   @Verif.PropStream.C47_spec_deterministic,
   @Verif.PropStream.C47_parser_reads_the_stream).
Print Assumptions of_PropStream.

Definition of_PropText :=
  (@Verif.PropText.C33_text_determines_obj,
   @Verif.PropText.C36_text_determines_value,
   @Verif.PropText.C50_appending_extends,
   @Verif.PropText.C50_accepted_prefix,
   @Verif.PropText.C50_error_stays,
   @Verif.PropText.C50_fields_stay,
   @Verif.PropText.C50_two_documents,
   @Verif.PropText.C35_crash_load,
   @Verif.PropText.C35_crash_between_fields,
   @Verif.PropText.C35_crash_inside_number).
Print Assumptions of_PropText.

Definition of_PropType :=
  (@Verif.PropType.C08_get_type,
   @Verif.PropType.C08_inner_types,
   @Verif.PropType.C09_get_type).
Print Assumptions of_PropType.

Definition of_PropWalk :=
  (@Verif.PropWalk.C59_write,
   @Verif.PropWalk.C59_display,
   @Verif.PropWalk.C59_eq,
   @Verif.PropWalk.C59_value_eq,
   @Verif.PropWalk.C59_dies_or_agrees,
   @Verif.PropWalk.C59_get,
   @Verif.PropWalk.C59_get_type,
   @Verif.PropWalk.C59_reloadable,
   @Verif.PropWalk.C59_overflow).
Print Assumptions of_PropWalk.

Definition of_PropWork :=
  (@Verif.PropWork.C58_meter_is_loading,
   @Verif.PropWork.C58_reads_are_the_opens,
   @Verif.PropWork.C58_str,
   @Verif.PropWork.C58_file,
   @Verif.PropWork.C58_reads_once,
   @Verif.PropWork.C58_str_disk,
   @Verif.PropWork.C58_file_disk,
   @Verif.PropWork.C58_no_includes,
   @Verif.PropWork.C58_data_not_linear).
Print Assumptions of_PropWork.

Definition of_PropWritten :=
  (@Verif.PropWritten.C81_length,
   @Verif.PropWritten.C81_display,
   @Verif.PropWritten.C81_lines,
   @Verif.PropWritten.C81_two_lines_each,
   @Verif.PropWritten.C81_loadable,
   @Verif.PropWritten.C81_deep,
   @Verif.PropWritten.C81_not_linear_in_the_source,
   @Verif.PropWritten.C81_ints,
   @Verif.PropWritten.C81_reading_back).
Print Assumptions of_PropWritten.
