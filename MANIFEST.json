{
 "claims": [
  {
   "property": "C01",
   "status": "partial",
   "theorems": [
    "C01_number_history_wf_partial",
    "C01_neg_wf_iff",
    "C01_arith_wf_iff",
    "C01_number_wf_refuted",
    "C01_neg_u64_max_refuted"
   ],
   "note": "The exact set of operations that leave the well-formed numbers is characterised (C01_neg_wf_iff, C01_arith_wf_iff); the unrestricted claim is refuted: -0, -(u64::MAX), release-build division by zero."
  },
  {
   "property": "C02",
   "status": "proved",
   "theorems": [
    "C02_number_order_is_real_order",
    "C02_number_eq_is_real_eq",
    "C02_number_eq_hash",
    "C02_float_eq_hash"
   ],
   "note": "Full statement."
  },
  {
   "property": "C03",
   "status": "partial",
   "theorems": [
    "C03_integer_arith_exact",
    "C03_integer_neg_exact",
    "C03_integer_history_exact",
    "C03_mixed_sign_refuted",
    "C03_neg_zero_refuted",
    "C03_division_is_rounded"
   ],
   "note": "Exactness is proved in the stated range for all classes except the two refuted cases (operands of different signs above the float range, -0)."
  },
  {
   "property": "C04",
   "status": "partial",
   "theorems": [
    "C04_from_f64_none",
    "C04_from_f64_value_partial",
    "C04_from_f64_saturates",
    "C04_from_f64_value_refuted",
    "C04_as_i64_faithful",
    "C04_as_u64_faithful"
   ],
   "note": "Proved except for integral floats outside the i64 range, where from_f64 saturates (refuted)."
  },
  {
   "property": "C05",
   "status": "proved",
   "theorems": [
    "C05_try_new_accepts_iff_valid",
    "C05_sanitized_valid",
    "C05_sanitized_keeps_valid",
    "C05_sanitized_idempotent",
    "C05_sanitized_length"
   ],
   "note": "Full statement, for any Unicode tables."
  },
  {
   "property": "C06",
   "status": "proved",
   "theorems": [
    "C06_operator_spelling_round_trip",
    "C06_operator_spelling_injective",
    "C06_precedence_levels"
   ],
   "note": "Full statement."
  },
  {
   "property": "C07",
   "status": "partial",
   "theorems": [
    "C07_escape_reads_back_iff",
    "C07_escape_reads_back_partial",
    "C07_unescape_escape_partial",
    "C07_unmarked_text_unchanged",
    "C07_escape_changes_markers_only",
    "C07_unescape_changes_markers_only",
    "C07_escape_leaves_marker_refuted",
    "C07_round_trip_refuted"
   ],
   "note": "C07_escape_reads_back_iff gives the exact set of strings that survive; the unrestricted claim is refuted (adjacent markers)."
  },
  {
   "property": "C08",
   "status": "partial",
   "theorems": [
    "C08_history_unique_keys",
    "C08_unique_keys_preserved",
    "C08_constructed_unique_keys",
    "C08_try_push_rejects_iff_present",
    "C08_store_refuted"
   ],
   "note": "Proved for all histories of the listed operations; refuted when an attribute is stored through get_mut."
  },
  {
   "property": "C09",
   "status": "proved",
   "theorems": [
    "C09_step_refines",
    "C09_spec_deterministic",
    "C09_history_refines",
    "C09_history_panics_iff",
    "C09_remove_blocks",
    "C09_get_attribute",
    "C09_get_blocks"
   ],
   "note": "Full statement: the model refines a list specification for all histories, panics included."
  },
  {
   "property": "C10",
   "status": "proved",
   "theorems": [
    "C10_history_refines",
    "C10_distinct_keys",
    "C10_spec_complete",
    "C10_equality"
   ],
   "note": "Full statement."
  },
  {
   "property": "C11",
   "status": "proved",
   "theorems": [
    "C11_has_labels_iff_prefix",
    "C11_has_exact_labels_iff_equal",
    "C11_label_kind_irrelevant"
   ],
   "note": "Full statement."
  },
  {
   "property": "C12",
   "status": "partial",
   "theorems": [
    "C12_body_partial",
    "C12_expr_partial",
    "C12_template_partial",
    "C12_nothing_left_partial",
    "C12_operator_decor_refuted"
   ],
   "note": "Proved for everything except the decor of binary operators, which keeps spans (refuted)."
  },
  {
   "property": "C13",
   "status": "partial",
   "theorems": [
    "C13_common_indentation",
    "C13_no_indentation",
    "C13_literal_without_indentation",
    "C13_flat",
    "C13_unindented_line_refuted",
    "C13_indent_then_dedent",
    "C13_carriage_return_refuted",
    "C13_print_dedented",
    "C13_print_blank_line_refuted"
   ],
   "note": "Proved; text without indentation is left alone (C13_flat); refuted for an unindented first line with an interpolation, blank lines and carriage returns."
  },
  {
   "property": "C14",
   "status": "partial",
   "theorems": [
    "C14_location",
    "C14_line",
    "C14_multibyte_column_refuted",
    "C14_end_of_input",
    "C14_end_after_newline_refuted",
    "C14_never_panics",
    "C14_parse_errors_in_input"
   ],
   "note": "Proved for the line, the byte column and the message; refuted for multi-byte columns and an error after the last line break."
  },
  {
   "property": "C15",
   "status": "partial",
   "theorems": [
    "C15_terminates",
    "C15_release",
    "C15_debug_panics",
    "C15_smallest_i64_refuted"
   ],
   "note": "Termination and absence of panics in release builds are proved for all texts; in debug builds exactly the literal -(2^63) family panics (refuted)."
  },
  {
   "property": "C16",
   "status": "partial",
   "theorems": [
    "C16_body_partial",
    "C16_expr_partial",
    "C16_template_partial",
    "C16_unknown_escape_refuted",
    "C16_short_unicode_refuted",
    "C16_escape_choice_refuted",
    "C16_operator_trivia_refuted",
    "C16_traversal_trivia_refuted",
    "C16_ellipsis_trivia_refuted",
    "C16_repeated_key_refuted",
    "C16_chained_comparison_refuted",
    "C16_heredoc_refuted",
    "C16_escape_flag_refuted",
    "C16_line_end_refuted"
   ],
   "note": "Proved for all accepted texts without the listed constructs; each exception is refuted by a witness."
  },
  {
   "property": "C17",
   "status": "partial",
   "theorems": [
    "C17_grouping_partial",
    "C17_grouping_unique",
    "C17_parser_groups",
    "C17_operand_dropped_refuted"
   ],
   "note": "Proved for all chains in which comparisons are not chained; chained comparisons drop operands (refuted)."
  },
  {
   "property": "C18",
   "status": "partial",
   "theorems": [
    "C18_repeated_key_partial",
    "C18_unique_keys"
   ],
   "note": "Uniqueness is proved for all texts. Rejection of repeated keys is proved at any depth and whatever follows, for texts whose preceding lines are printed by hcl-edit (partial)."
  },
  {
   "property": "C19",
   "status": "partial",
   "theorems": [
    "C19_string_literals",
    "C19_quoted_round_trip_partial",
    "C19_quoted_round_trip_no_adjacent_partial",
    "C19_code_points",
    "C19_unknown_escape_refuted",
    "C19_quoted_round_trip_refuted"
   ],
   "note": "Reading of literals is proved against a separate lexical specification for all texts; printing and reading is proved for strings that satisfy escape_ok; unknown escapes and adjacent markers are refuted."
  },
  {
   "property": "C20",
   "status": "partial",
   "theorems": [
    "C20_digits_exact",
    "C20_print_parse",
    "C20_print_parse_negative_partial",
    "C20_negative_wraps_refuted"
   ],
   "note": "Proved; refuted for negative literals below i64::MIN, which wrap."
  },
  {
   "property": "C21",
   "status": "partial",
   "theorems": [
    "C21_expressions_partial",
    "C21_expressions_same_partial",
    "C21_bodies_partial",
    "C21_bodies_same_partial",
    "C21_values_partial",
    "C21_marked_value_refuted",
    "C21_for_key_refuted",
    "C21_for_variable_refuted",
    "C21_null_variable_refuted",
    "C21_negation_refuted",
    "C21_traversal_refuted",
    "C21_operation_refuted",
    "C21_indented_heredoc_refuted",
    "C21_expand_refuted",
    "C21_key_after_array_refuted",
    "C21_key_after_sum_refuted",
    "C21_ident_keys_refuted",
    "C21_duplicate_refuted",
    "C21_templates_partial",
    "C21_templates_same_partial",
    "C21_tpl_dollar_refuted",
    "C21_tpl_literals_refuted",
    "C21_tpl_escape_refuted",
    "C21_tpl_else_refuted",
    "C21_quoted_template_refuted",
    "C21_template_escapes_refuted",
    "C21_dedented_refuted"
   ],
   "note": "Proved for all configurations and all readable expressions, bodies, values and templates, with quoted templates and heredocs inside of expressions (not in keys; <<- heredocs with no indentation left come back as << heredocs with the same text; quoted templates whose text needs no escape sequences); excluded trees and strings are refuted by witnesses. Values: the strings which are read back are described without the formatter's own test (marked, FmtReadSpec.v)."
  },
  {
   "property": "C22",
   "status": "partial",
   "theorems": [
    "C22_reuse_partial",
    "C22_expressions",
    "C22_dense",
    "C22_body_refuted"
   ],
   "note": "Proved for expressions and for the dense formatter; refuted for bodies (blank line)."
  },
  {
   "property": "C23",
   "status": "partial",
   "theorems": [
    "C23_whitespace_partial",
    "C23_commas_partial",
    "C23_any_configuration_partial",
    "C23_commas_refuted",
    "C23_quotes_refuted",
    "C23_single_line",
    "C23_call_single_line",
    "C23_conditional_single_line",
    "C23_array_depth",
    "C23_object_depth",
    "C23_empty_block_refuted"
   ],
   "note": "Proved up to the refuted exceptions (commas, quotes around keys, empty blocks)."
  },
  {
   "property": "C24",
   "status": "proved",
   "theorems": [
    "C24_literals_evaluate_to_themselves",
    "C24_values_through_expressions"
   ],
   "note": "Full statement."
  },
  {
   "property": "C25",
   "status": "partial",
   "theorems": [
    "C25_in_place_is_evaluate_partial",
    "C25_in_place_plain_keys",
    "C25_body_in_place_is_evaluate_partial",
    "C25_equal_keys_refuted",
    "C25_in_place_may_fail_refuted"
   ],
   "note": "Proved for objects without equal simplified keys; refuted otherwise."
  },
  {
   "property": "C26",
   "status": "partial",
   "theorems": [
    "C26_partial_evaluation_sound_partial",
    "C26_partial_evaluation_plain_keys",
    "C26_partial_body_sound_partial",
    "C26_partial_template_sound_partial",
    "C26_loop_variable_refuted"
   ],
   "note": "Proved for expressions without template loop variables that clash with outer variables; refuted otherwise."
  },
  {
   "property": "C27",
   "status": "proved",
   "theorems": [
    "C27_innermost_declaration",
    "C27_variable",
    "C27_only_free_variables_matter",
    "C27_loop_variable_shadows"
   ],
   "note": "Full statement."
  },
  {
   "property": "C28",
   "status": "proved",
   "theorems": [
    "C28_for_array",
    "C28_for_object",
    "C28_body_scope"
   ],
   "note": "Full statement."
  },
  {
   "property": "C29",
   "status": "proved",
   "theorems": [
    "C29_full_splat",
    "C29_attr_splat",
    "C29_one_step",
    "C29_index_in_bounds_or_error",
    "C29_index_expr_in_bounds_or_error"
   ],
   "note": "Full statement."
  },
  {
   "property": "C30",
   "status": "partial",
   "theorems": [
    "C30_fitting_call_runs_the_body_partial",
    "C30_misfit_is_an_error",
    "C30_args_split",
    "C30_empty_alternatives_refuted"
   ],
   "note": "Proved; refuted for the type OneOf([])."
  },
  {
   "property": "C31",
   "status": "proved",
   "theorems": [
    "C31_template_is_concatenation",
    "C31_strip_left",
    "C31_strip_right",
    "C31_single_interpolation",
    "C31_other_templates"
   ],
   "note": "Full statement."
  },
  {
   "property": "C32",
   "status": "partial",
   "theorems": [
    "C32_panics_only_in_arithmetic_partial",
    "C32_modulo_zero_refuted",
    "C32_release_builds_partial",
    "C32_remainder_panics"
   ],
   "note": "Proved: panics come only from arithmetic (debug overflow, remainder by zero); the latter is refuted."
  },
  {
   "property": "C33",
   "status": "partial",
   "theorems": [
    "C33_evaluated_bodies_are_literal",
    "C33_evaluated_in_place_partial"
   ],
   "note": "Proved; in-place evaluation as in C25."
  },
  {
   "property": "C34",
   "status": "partial",
   "theorems": [
    "C34_attributes_kept",
    "C34_blocks_kept",
    "C34_members_exact",
    "C34_conflicting_paths_refuted"
   ],
   "note": "Proved for bodies without conflicting names; refuted otherwise."
  },
  {
   "property": "C35",
   "status": "partial",
   "theorems": [
    "C35_flag",
    "C35_no_reuse",
    "C35_balanced_partial",
    "C35_taken_partial",
    "C35_terminates_partial",
    "C35_block_of_expression_refuted",
    "C35_body_as_expression_refuted",
    "C35_attribute_field_refuted",
    "C35_expression_key_refuted",
    "C35_nested_to_value_refuted"
   ],
   "note": "Proved for values that use the crate's types at their places; refuted for the listed misuses."
  },
  {
   "property": "C36",
   "status": "partial",
   "theorems": [
    "C36_expression_round_trip_partial",
    "C36_template_round_trip_partial",
    "C36_body_round_trip_partial",
    "C36_plain_round_trip",
    "C36_from_edit",
    "C36_heredoc_mode_refuted",
    "C36_invalid_template_refuted",
    "C36_expanded_keys_refuted",
    "C36_duplicate_attribute_refuted",
    "C36_else_strip_refuted"
   ],
   "note": "Proved in both directions (C36_from_edit for all trees); the losses on the way to hcl-edit are refuted."
  },
  {
   "property": "C37",
   "status": "partial",
   "theorems": [
    "C37_values_partial",
    "C37_canonical",
    "C37_order",
    "C37_numbers_refuted",
    "C37_to_expression"
   ],
   "note": "Proved for well-formed numbers; refuted for the others."
  },
  {
   "property": "C38",
   "status": "partial",
   "theorems": [
    "C38_visits_expr_partial",
    "C38_visits_body_partial",
    "C38_visits_template_partial",
    "C38_visits_all",
    "C38_walk_unique",
    "C38_each_once_partial",
    "C38_each_once_expr_partial",
    "C38_for_directive_refuted",
    "C38_for_directive_walk_refuted",
    "C38_mut_default",
    "C38_mut_attribute_names",
    "C38_mut_unique_keys",
    "C38_mut_object_keys",
    "C38_mut_visits",
    "C38_mut_exprs"
   ],
   "note": "Proved for trees without for directives, whose collection is not visited (refuted); VisitMut is proved for all trees."
  },
  {
   "property": "C39",
   "status": "partial",
   "theorems": [
    "C39_expr_equivalence_partial",
    "C39_body_equivalence_partial",
    "C39_ignores_formatting",
    "C39_same_without_formatting",
    "C39_exact_partial",
    "C39_body_exact_partial",
    "C39_objects",
    "C39_parsed_wf_partial",
    "C39_expand_ignored_refuted",
    "C39_layout_compared_refuted",
    "C39_not_reflexive_refuted",
    "C39_not_transitive_refuted"
   ],
   "note": "Proved for well-formed trees; expand_final is ignored, layout inside nodes is compared, reflexivity and transitivity fail for ill-formed trees (refuted)."
  },
  {
   "property": "C40",
   "status": "partial",
   "theorems": [
    "C40_continue_partial",
    "C40_all",
    "C40_failure",
    "C40_schedule",
    "C40_terminates",
    "C40_entries",
    "C40_main_schedule",
    "C40_files",
    "C40_unlisted",
    "C40_continue_refuted"
   ],
   "note": "Proved for every schedule; a panicking file ends the whole run (refuted)."
  },
  {
   "property": "C41",
   "status": "proved",
   "theorems": [
    "C41_more_declarations",
    "C41_nesting_bound",
    "C41_empty_scope"
   ],
   "note": "Full statement."
  },
  {
   "property": "C42",
   "status": "partial",
   "theorems": [
    "C42_expression",
    "C42_body",
    "C42_to_string",
    "C42_attribute",
    "C42_to_value_refuted"
   ],
   "note": "Proved; to_value of non-empty objects fails (refuted)."
  },
  {
   "property": "C43",
   "status": "partial",
   "theorems": [
    "C43_text_partial",
    "C43_scalars",
    "C43_escape_refuted"
   ],
   "note": "Proved for strings that survive escaping (C07); refuted otherwise."
  },
  {
   "property": "C44",
   "status": "partial",
   "theorems": [
    "C44_both_operands",
    "C44_failing_operand",
    "C44_wrong_operands",
    "C44_logic",
    "C44_comparison",
    "C44_equality",
    "C44_arithmetic_partial",
    "C44_division",
    "C44_not",
    "C44_negation_partial",
    "C44_wrong_unary",
    "C44_conditional",
    "C44_conditional_needs_bool",
    "C44_parentheses",
    "C44_array",
    "C44_object"
   ],
   "note": "Proved; exactness of arithmetic as in C03."
  },
  {
   "property": "C45",
   "status": "partial",
   "theorems": [
    "C45_body_partial",
    "C45_expr_partial",
    "C45_template_partial",
    "C45_attribute_partial",
    "C45_missing_span_refuted",
    "C45_object_order_refuted"
   ],
   "note": "Proved for all accepted texts, except that some nodes carry no span and repeated object keys are out of order (refuted)."
  },
  {
   "property": "C46",
   "status": "partial",
   "theorems": [
    "C46_bodies_partial",
    "C46_expressions_partial",
    "C46_templates_partial",
    "C46_equal_bodies_partial",
    "C46_equal_expressions_partial",
    "C46_one_meaning_partial",
    "C46_same_text_expressions_partial",
    "C46_same_text_templates_partial",
    "C46_same_text_bodies_partial",
    "C46_operator_decor_refuted",
    "C46_for_without_decor_refuted",
    "C46_directive_literal_refuted",
    "C46_nested_quotes_refuted",
    "C46_heredoc_in_quotes_refuted",
    "C46_object_keys_refuted",
    "C46_empty_heredoc_refuted",
    "C46_heredoc_text_refuted",
    "C46_heredoc_indent_refuted",
    "C46_empty_array_refuted",
    "C46_literal_template_refuted",
    "C46_operators_refuted",
    "C46_for_return_refuted"
   ],
   "note": "Proved for the trees described by ok/body_ok (BackSpec.v, BackBodySpec.v); the other trees are covered by refutations, one per cause, or lie outside the stated decor. Same text again: except for decor of operators (C46_operator_decor_refuted) and after the dots of grouped for expressions (settled, lone: SameSpec.v)."
  },
  {
   "property": "C47",
   "status": "partial",
   "theorems": [
    "C47_values_partial",
    "C47_expressions_partial",
    "C47_newtype_refuted",
    "C47_keys_refuted",
    "C47_nested_option_refuted",
    "C47_floats_refuted"
   ],
   "note": "Proved for the data described by kept (TySpec.v): keys, newtypes, nested options and floats outside of it are covered by refutations. serde's implementations for user types are modelled after its documentation."
  },
  {
   "property": "C48",
   "status": "partial",
   "theorems": [
    "C48_text_partial",
    "C48_body_partial",
    "C48_layout",
    "C48_keys_refuted",
    "C48_top_level_refuted",
    "C48_few_blocks_refuted",
    "C48_block_none_refuted"
   ],
   "note": "Proved for the data described by fits (TySpec.v); what it excludes is covered by refutations or is what C21 and C43 exclude (strings for which escaping goes wrong, numbers that are not read back)."
  },
  {
   "property": "C49",
   "status": "partial",
   "theorems": [
    "C49_lines",
    "C49_last_line",
    "C49_insert",
    "C49_remove",
    "C49_place",
    "C49_edit_partial",
    "C49_quoted_template_refuted",
    "C49_heredoc_refuted"
   ],
   "note": "The text around a place does not depend on what is put there (C49_place), for all places outside quoted templates and indented heredocs, where edits are shown not to be local. That the text around the place is the text which was read needs C16's condition on the document."
  },
  {
   "property": "C50",
   "status": "partial",
   "theorems": [
    "C50_expression",
    "C50_structure",
    "C50_label",
    "C50_body",
    "C50_body_as_expression",
    "C50_from_str_partial",
    "C50_contents",
    "C50_structure_contents",
    "C50_minus_zero_refuted",
    "C50_variable_refuted",
    "C50_from_value_refuted"
   ],
   "note": "Proved for all trees with valid identifiers, well-formed numbers and distinct object keys; parsed documents are such trees. Refuted: a Variable cannot be read from Expression::Variable; for \"-0\" from_str::<Body> and parse return numbers which are equal but report different types; an Expression cannot be read from a Value. Documents with such literals are excluded from C50_from_str_partial."
  },
  {
   "property": "C51",
   "status": "partial",
   "theorems": [
    "C51_documents_partial",
    "C51_expressions_partial",
    "C51_templates_partial",
    "C51_equal_documents_partial",
    "C51_edited_documents_partial",
    "C51_repeated_key_refuted",
    "C51_nested_quotes_refuted",
    "C51_directive_literal_refuted",
    "C51_heredoc_in_quotes_refuted"
   ],
   "note": "Proved for parsed documents whose tree is regular (AgainSpec.v) and edits which put in parts that satisfy C46's conditions (AgainEdits.v). Refuted for objects with repeated keys and for literals that need escapes inside directives or behind nested templates; missing: indented heredocs, a minus sign directly behind its left operand."
  },
  {
   "property": "C52",
   "status": "proved",
   "theorems": [
    "C52_structures",
    "C52_attributes",
    "C52_blocks",
    "C52_collect",
    "C52_iter_mut",
    "C52_attributes_mut",
    "C52_blocks_mut",
    "C52_builders",
    "C52_extend"
   ],
   "note": "Mutable iterators: a reference is a position in the body; the client writes when it gets the element."
  },
  {
   "property": "C53",
   "status": "partial",
   "theorems": [
    "C53_report",
    "C53_end",
    "C53_multibyte_refuted",
    "C53_message",
    "C53_never_panics"
   ],
   "note": "Refuted for errors at characters that are not ASCII (the column counts bytes of the line then, see C14). The texts of expected values and causes come from winnow and are parameters."
  },
  {
   "property": "C54",
   "status": "proved",
   "theorems": [
    "C54_same_results",
    "C54_same_results_in_place",
    "C54_expression",
    "C54_body",
    "C54_template",
    "C54_in_place",
    "C54_in_place_body",
    "C54_in_place_template"
   ],
   "note": "Full statement, for the evaluator with named expressions, which is proved to have the results of the evaluator of C24-C33. For evaluation in place the named expression need not itself fail with the reported error: with several errors below it, it fails with the first."
  },
  {
   "property": "C55",
   "status": "partial",
   "theorems": [
    "C55_expression_partial",
    "C55_value_partial",
    "C55_attribute_partial",
    "C55_block_partial",
    "C55_structure_partial",
    "C55_body_partial",
    "C55_last_value_refuted",
    "C55_body_value_refuted",
    "C55_parenthesised_key_refuted",
    "C55_raw_identifier_refuted"
   ],
   "note": "Proved for all documents of the macro syntax (MacroSpec.v). Excluded and refuted by witnesses: a last object value of several tokens without a comma, an attribute value of several tokens in body!, a parenthesised key behind a Rust expression without a comma, raw identifiers. Negative literal keys and labels are modelled but not part of the syntax in MacroSpec.v."
  },
  {
   "property": "C56",
   "status": "partial",
   "theorems": [
    "C56_param_types",
    "C56_param_types_refuted",
    "C56_calls",
    "C56_calls_evaluated",
    "C56_arguments_partial",
    "C56_errors_partial",
    "C56_keys_refuted",
    "C56_messages_refuted",
    "C56_function_messages_refuted",
    "C56_collected",
    "C56_lists_partial",
    "C56_counted"
   ],
   "note": "Calls, parameter types, collecting and counting are proved in full (OneOf without alternatives refuted). That different errors have different texts is proved for values and expressions whose text is read back as they are (C21), keys and messages of functions without grave accents (or the messages of calls themselves) and, for lists, errors of one line; keys and messages with grave accents and errors with a text only are refuted by witnesses."
  },
  {
   "property": "C57",
   "status": "partial",
   "theorems": [
    "C57_history",
    "C57_one_history",
    "C57_panics",
    "C57_settings",
    "C57_get",
    "C57_len",
    "C57_collect",
    "C57_single",
    "C57_array_text_partial",
    "C57_call_text_partial",
    "C57_template_text_partial",
    "C57_pushed_literals_refuted",
    "C57_expand_without_arguments_refuted"
   ],
   "note": "Histories, panics, settings, reading access and collecting are proved in full. That the text is read back is proved for elements which satisfy the conditions of C46 and white space and comments as trailing text; for templates the joined literals have no adjacent $ or % and no marker arises where literals meet (the latter is refuted by a witness: pushing \"$\" and \"{x}\" prints an interpolation). A call without arguments does not keep expand_final (refuted)."
  },
  {
   "property": "C58",
   "status": "partial",
   "theorems": [
    "C58_texts_partial",
    "C58_built_partial",
    "C58_parsed_partial",
    "C58_view",
    "C58_objects_partial",
    "C58_store_refuted"
   ],
   "note": "Proved for structures, keys and values which satisfy the conditions of C46 (also parsed ones, C51); object values end with a line break or a comma, and keys do not start with - ! [ ( or <. Writing a whole structure through get_mut(index) is left out: it can repeat a key, and then the text is refused (refuted)."
  },
  {
   "property": "C59",
   "status": "partial",
   "theorems": [
    "C59_total",
    "C59_value_partial",
    "C59_expression",
    "C59_identifier_keys",
    "C59_f32_exact",
    "C59_large_floats_refuted",
    "C59_accessors",
    "C59_guarantees",
    "C59_integers",
    "C59_read_back",
    "C59_number_tests",
    "C59_is_i64_refuted",
    "C59_serialized"
   ],
   "note": "Proved in full except that floats without a fraction must lie in the range of i64 (otherwise they are clamped, refuted by 2^64; same defect as C04) and that is_i64 and is_f64 do not test what their documentation says (refuted by 5; C59_number_tests states what they test). Agreement with serde assumes that Numbers inside satisfy their invariant (C01)."
  }
 ]
}