# Formal model of hcl-rs: design

The code under study is the hcl-rs workspace (`/repo`, crates `hcl-primitives`, `hcl-edit`,
`hcl-rs`, `hcl2json`).  The model is written in Coq 8.16.1 under `rocq/theories` (logical name
`Verif`).  Properties are listed in `properties.jsonl`; `MANIFEST.json` maps them to theorems.

## Conventions

* **Model files** (`*Model.v`) contain only definitions.  Each carries a comment with the file and
  lines it models, and states every simplification.
* **Proof files** (`*Proofs.v`) contain lemmas.  **Property files** (`*Props.v`) contain only the
  property theorems closed with `exact`, followed by `Print Assumptions`, and the `Example`s which
  show that the hypotheses can be met.
* Small **specifications** which are independent of the model (`Spec…` definitions) sit in the
  property files or in `*Spec.v`.
* Suffixes: `_partial` = less than the English property is proved (the comment says what is
  missing); `_refuted` = the faithful model violates the English property, with a witness.
* Text is a `list N` of Unicode scalar values.  Byte offsets become scalar offsets.
* A panic is an explicit value (`Panic`), fuel exhaustion is an explicit value (`OutOfFuel`),
  never a normal-looking result.
* `f64` is Flocq's `binary_float 53 1024` (IEEE-754 binary64 with a single NaN).  Only Flocq's
  *definitions and theorems* are used; its theorems rest on the axioms of the Coq standard
  library's reals, listed below.
* XID tables (crate `unicode-ident`) are a parameter of the model (a record of two boolean
  functions); theorems state what they need about the tables as hypotheses.
* User functions are arbitrary Coq functions in the evaluation context.

## Plan per property

| id | modelled | how proved |
|----|----------|-----------|
| C01 | `number.rs`: constructors, operators; debug/release overflow explicit | invariant over expression histories; the exceptions are characterised exactly and refuted with witnesses |
| C02 | eq, partial_cmp, hash of numbers | refinement to the reals via Flocq |
| C03 | arithmetic of numbers | refinement to `Z`; refuted beyond 2^53 for mixed signs |
| C04 | from_f64, as_* | refinement to the reals; refuted above the i64 range, proved inside |
| C05 | `ident.rs` | induction, XID tables as parameter |
| C06 | `expr.rs` operators | finite case analysis plus all strings |
| C07 | `escape_markers`, `unescape_markers` | exact characterisation of the texts which are read back; refuted outside |
| C08/C09 | `structure/body.rs` operations as `step` | invariant / refinement by induction over operation lists |
| C10 | `expr/object.rs`, VecMap, IndexMap | refinement to an ordered association list |
| C11 | `block.rs` labels | list lemmas |
| C12 | RawString/Decor/despan | structural induction; operator decor refuted |
| C13 | dedent/indent | list lemmas; removal of non-whitespace refuted |
| C14 | `parser/error.rs` | list lemmas |
| C15 | the whole parser, with fuel | fuel linear in the input suffices; the one panic is characterised |
| C16 | parser + encoder | grammar derivation of every parse, then printing follows the derivation; refuted exceptions |
| C17 | `pratt.rs` (with a model of the `pratt` crate's loop) | induction over the token list; refuted for chained comparisons |
| C18 | body parser | by C08 and the parser |
| C19 | encode_escaped / string parser | induction over the string |
| C20 | number parser / Display | induction over digits |
| C21–C23 | formatter of hcl-rs | formatted text is a grammar derivation whose tree is the original one |
| C24–C33, C41, C44 | evaluator | fuelled evaluator (fuel bounds nested template *texts* only), structural induction |
| C34 | json_spec.rs | induction; refuted for conflicting names |
| C35, C42 | serializers, thread-local flag and handles | state machine; every serializer restores what it took |
| C36 | edit conversions | structural induction; refuted exceptions |
| C37, C43 | value (de)serialization, `to_string`/`from_str` | structural induction, C21 |
| C38 | visit.rs, visit_mut.rs | structural induction |
| C39 | PartialEq impls | structural induction; FuncArgs refuted |
| C45 | spans of the parser (`spanned`, `decorated`, pratt, template) | the grammar derivation of a parse carries offsets; an outline of the tree is laid over the text |
| C46 | encoder and parser of hcl-edit on arbitrary trees | the parser is run on the text of each node (Eat.v), bottom up; `ok` says which trees are meant; along the way the decor each node is given is tracked (`wears`, BackWear.v), which gives the same text again for `settled` trees (SameSpec.v); refuted exceptions |
| C47, C48 | user types as codes (`ty`) with serde's usual implementations, the deserializers for values, expressions, keys and documents | structural induction over the type, one case per place of a document; C21 for the text; the arrangement of attributes and blocks is specified on its own (`plan_for`, TyLayout.v) and proved of every written document; refuted exceptions |
| C49 | places in a tree as functions which put something there (`in_lines`, `in_expr`, EditSpec.v), the printer of hcl-edit | the printer's flag is clear between the parts of a body (mutual induction over the tree), so texts of parts are independent of each other; induction over the place; C16 for the text which was read |
| C50 | the deserializers for expressions, structures and bodies and the `Deserialize` implementations of these types, as functions from sources and requests to visits (`ask`, `de_expr`, OwnModel.v) | induction over the tree, one lemma per variant; parsed trees satisfy the invariants by induction over the grammar of C12 |
| C51 | the trees the parser returns satisfy C46's conditions on layout (`regular`, AgainSpec.v, lists the rest); edits as a relation on trees (`edits`, AgainEdits.v) | an invariant for each rule of the grammar of C12, for trees before and after decor is placed; induction over the history of edits; C46 |
| C52 | `structure/iter.rs`, the builders of `body.rs` and `block.rs`; iterators of the standard library are the lists of what is left, mutable references are positions (IterModel.v) | induction over histories of calls; for writes, the body is split into the parts before, in and behind the iterator |
| C53 | `Display` of `parser/error.rs` on top of C14's locations (ErrShowModel.v) | list lemmas |
| C54 | the evaluator with contexts that hold the current expression and errors that carry one (BlameModel.v) | simulation with the evaluator of C24–C33, structural induction |
| C55 | Rust token trees and the rules of the construction macros as fuelled rewriting; Rust's expression syntax is a parameter (MacroModel.v) | induction over what is written |
| C56 | `Display` of evaluation errors, of lists of them and of parameter types, `FuncDef::call` with its messages (MsgModel.v) | the reading theorem of C21 used at the front of a longer text: the printed expression can only end in one place |
| C57 | the list methods of `Array`, `FuncArgs` and `Template` and their collecting, as one vector with settings (SeqModel.v); text and parser as in C46 | refinement of a relational specification of histories by induction on the calls; for the text, an equal tree which satisfies the conditions of C46 (trailing text becomes decor of the last element, neighbouring literals are joined) |
| C58 | no new code: the histories of BodyModel.v (C08, C09) and MapModel.v (C10) with whole structures and items (EAst.v) as payload (BodyTextSpec.v), printing and parsing as in C46 | invariant of the histories (all structures fine, keys unique by C08), then C46 |
| C59 | `value/from.rs`, the conversions of `expr/mod.rs:123-218` and the accessors of `value/mod.rs:35-198` (HostModel.v) over a type of Rust values; f32 as Flocq's binary_float 24 128 | the relation `denotes` (HostSpec.v) by structural induction; widening by inclusion of the float formats; numbers by C04; agreement with the serializers of C35 (HostSer.v) by induction; refuted documentation of `is_i64` and `is_f64` |
| C40 | hcl2json, bulk conversion on a thread pool | all interleavings of an abstract work-stealing schedule |

## How the parser is verified

`ParseBase.v` models the combinators of winnow 0.7 (backtracking and committed errors, spans,
`repeat`, `alt`, `cut_err`, …); `ParseModel.v` models hcl-edit's parser on top of them, one Coq
function per Rust function.  `Grammar.v` is an independent specification: an inductive relation
between a text, a byte offset and a syntax tree.  `ParseSound*.v` prove that whatever the parser
returns is derived by the grammar, `Eat*.v` and `ParseTop.v` that texts produced by the formatter
are parsed to the tree they were produced from.  `Loss*.v` prove that printing a derived tree gives
the derived text back unless a decidable check (`LossSpec.v`) fails; the check's clauses are exactly
the kinds of loss found in the code.

## Trusted base

* Coq 8.16.1's kernel and the `vm_compute` reduction machine.
* The reading of the Rust source: the model is written by hand.  Every definition names the lines
  it models.
* The meaning of the external crates as modelled, taken from their documentation: winnow (parser
  combinators), pratt (operator precedence loop), vecmap/indexmap (insertion-ordered maps),
  unicode-ident (two arbitrary tables), fnv (not modelled, hashing order is unobservable), serde
  (which trait method a value calls, as data), itoa/ryu (decimal of integers; floats as parameter),
  rayon and ignore (thread pool, directory walk; see CliModel.v), std's `f64::from_str` (parameter),
  `str::lines`, `trim_start`, `trim_end`, `char::is_whitespace`.
* Axioms, all from the Coq standard library (the reals and classical logic, reached through
  Flocq's theorems about binary64 or through functions defined with Flocq):
  `ClassicalDedekindReals.sig_not_dec`, `ClassicalDedekindReals.sig_forall_dec`,
  `FunctionalExtensionality.functional_extensionality_dep`, `Classical_Prop.classic`.
  Theorems about expressions mention numbers, hence floats, hence these axioms even where no
  arithmetic is involved.  No axiom is declared in this development.

What `Print Assumptions` lists for each property theorem (generated by `tools/assumptions.py`):

<!-- assumptions -->
* **no axioms (closed under the global context)** (132 theorems): C03_integer_neg_exact, C05_sanitized_idempotent, C05_sanitized_keeps_valid, C05_sanitized_length, C05_sanitized_valid, C05_try_new_accepts_iff_valid, C06_operator_spelling_injective, C06_operator_spelling_round_trip, C06_precedence_levels, C07_escape_changes_markers_only, C07_escape_leaves_marker_refuted, C07_escape_reads_back_iff, C07_escape_reads_back_partial, C07_round_trip_refuted, C07_unescape_changes_markers_only, C07_unescape_escape_partial, C07_unmarked_text_unchanged, C08_constructed_unique_keys, C08_history_unique_keys, C08_store_refuted, C08_try_push_rejects_iff_present, C08_unique_keys_preserved, C09_get_attribute, C09_get_blocks, C09_history_panics_iff, C09_history_refines, C09_remove_blocks, C09_spec_deterministic, C09_step_refines, C10_distinct_keys, C10_equality, C10_history_refines, C10_spec_complete, C11_has_exact_labels_iff_equal, C11_has_labels_iff_prefix, C11_label_kind_irrelevant, C13_carriage_return_refuted, C13_common_indentation, C13_flat, C13_indent_then_dedent, C13_literal_without_indentation, C13_no_indentation, C13_print_blank_line_refuted, C13_print_dedented, C13_unindented_line_refuted, C14_end_after_newline_refuted, C14_end_of_input, C14_line, C14_location, C14_multibyte_column_refuted, C14_never_panics, C17_grouping_partial, C17_grouping_unique, C22_body_refuted, C22_dense, C22_expressions, C22_reuse_partial, C23_any_configuration_partial, C23_array_depth, C23_call_single_line, C23_commas_partial, C23_commas_refuted, C23_conditional_single_line, C23_empty_block_refuted, C23_object_depth, C23_quotes_refuted, C23_single_line, C23_whitespace_partial, C27_innermost_declaration, C28_body_scope, C30_args_split, C30_empty_alternatives_refuted, C30_fitting_call_runs_the_body_partial, C30_misfit_is_an_error, C31_strip_left, C31_strip_right, C38_each_once_expr_partial, C38_each_once_partial, C38_for_directive_walk_refuted, C38_mut_attribute_names, C38_mut_default, C38_mut_exprs, C38_mut_object_keys, C38_mut_unique_keys, C38_mut_visits, C38_visits_all, C38_visits_body_partial, C38_visits_expr_partial, C38_visits_template_partial, C38_walk_unique, C40_files, C49_heredoc_refuted, C49_insert, C49_last_line, C49_lines, C49_place, C49_quoted_template_refuted, C49_remove, C52_attributes, C52_attributes_mut, C52_blocks, C52_blocks_mut, C52_builders, C52_collect, C52_extend, C52_iter_mut, C52_structures, C53_end, C53_message, C53_multibyte_refuted, C53_never_panics, C53_report, C55_value_partial, C56_calls, C56_calls_evaluated, C56_collected, C56_counted, C56_function_messages_refuted, C56_keys_refuted, C56_messages_refuted, C56_param_types, C56_param_types_refuted, C57_collect, C57_get, C57_history, C57_len, C57_one_history, C57_panics, C57_settings, C57_single, C58_view, C59_accessors
* **`ClassicalDedekindReals.sig_forall_dec`, `FunctionalExtensionality.functional_extensionality_dep`** (4 theorems): C01_neg_wf_iff, C04_as_i64_faithful, C04_as_u64_faithful, C59_number_tests
* **`ClassicalDedekindReals.sig_forall_dec`, `ClassicalDedekindReals.sig_not_dec`, `Classical_Prop.classic`, `FunctionalExtensionality.functional_extensionality_dep`** (294 theorems): C01_arith_wf_iff, C01_neg_u64_max_refuted, C01_number_history_wf_partial, C01_number_wf_refuted, C02_float_eq_hash, C02_number_eq_hash, C02_number_eq_is_real_eq, C02_number_order_is_real_order, C03_division_is_rounded, C03_integer_arith_exact, C03_integer_history_exact, C03_mixed_sign_refuted, C03_neg_zero_refuted, C04_from_f64_none, C04_from_f64_saturates, C04_from_f64_value_partial, C04_from_f64_value_refuted, C12_body_partial, C12_expr_partial, C12_nothing_left_partial, C12_operator_decor_refuted, C12_template_partial, C14_parse_errors_in_input, C15_debug_panics, C15_release, C15_smallest_i64_refuted, C15_terminates, C16_body_partial, C16_chained_comparison_refuted, C16_ellipsis_trivia_refuted, C16_escape_choice_refuted, C16_escape_flag_refuted, C16_expr_partial, C16_heredoc_refuted, C16_line_end_refuted, C16_operator_trivia_refuted, C16_repeated_key_refuted, C16_short_unicode_refuted, C16_template_partial, C16_traversal_trivia_refuted, C16_unknown_escape_refuted, C17_operand_dropped_refuted, C17_parser_groups, C18_repeated_key_partial, C18_unique_keys, C19_code_points, C19_quoted_round_trip_no_adjacent_partial, C19_quoted_round_trip_partial, C19_quoted_round_trip_refuted, C19_string_literals, C19_unknown_escape_refuted, C20_digits_exact, C20_negative_wraps_refuted, C20_print_parse, C20_print_parse_negative_partial, C21_bodies_partial, C21_bodies_same_partial, C21_dedented_refuted, C21_duplicate_refuted, C21_expand_refuted, C21_expressions_partial, C21_expressions_same_partial, C21_for_key_refuted, C21_for_variable_refuted, C21_ident_keys_refuted, C21_indented_heredoc_refuted, C21_key_after_array_refuted, C21_key_after_sum_refuted, C21_marked_value_refuted, C21_negation_refuted, C21_null_variable_refuted, C21_operation_refuted, C21_quoted_template_refuted, C21_template_escapes_refuted, C21_templates_partial, C21_templates_same_partial, C21_tpl_dollar_refuted, C21_tpl_else_refuted, C21_tpl_escape_refuted, C21_tpl_literals_refuted, C21_traversal_refuted, C21_values_partial, C24_literals_evaluate_to_themselves, C24_values_through_expressions, C25_body_in_place_is_evaluate_partial, C25_equal_keys_refuted, C25_in_place_is_evaluate_partial, C25_in_place_may_fail_refuted, C25_in_place_plain_keys, C26_loop_variable_refuted, C26_partial_body_sound_partial, C26_partial_evaluation_plain_keys, C26_partial_evaluation_sound_partial, C26_partial_template_sound_partial, C27_loop_variable_shadows, C27_only_free_variables_matter, C27_variable, C28_for_array, C28_for_object, C29_attr_splat, C29_full_splat, C29_index_expr_in_bounds_or_error, C29_index_in_bounds_or_error, C29_one_step, C31_other_templates, C31_single_interpolation, C31_template_is_concatenation, C32_modulo_zero_refuted, C32_panics_only_in_arithmetic_partial, C32_release_builds_partial, C32_remainder_panics, C33_evaluated_bodies_are_literal, C33_evaluated_in_place_partial, C34_attributes_kept, C34_blocks_kept, C34_conflicting_paths_refuted, C34_members_exact, C35_attribute_field_refuted, C35_balanced_partial, C35_block_of_expression_refuted, C35_body_as_expression_refuted, C35_expression_key_refuted, C35_flag, C35_nested_to_value_refuted, C35_no_reuse, C35_taken_partial, C35_terminates_partial, C36_body_round_trip_partial, C36_duplicate_attribute_refuted, C36_else_strip_refuted, C36_expanded_keys_refuted, C36_expression_round_trip_partial, C36_from_edit, C36_heredoc_mode_refuted, C36_invalid_template_refuted, C36_plain_round_trip, C36_template_round_trip_partial, C37_canonical, C37_numbers_refuted, C37_order, C37_to_expression, C37_values_partial, C38_for_directive_refuted, C39_body_equivalence_partial, C39_body_exact_partial, C39_exact_partial, C39_expand_ignored_refuted, C39_expr_equivalence_partial, C39_ignores_formatting, C39_layout_compared_refuted, C39_not_reflexive_refuted, C39_not_transitive_refuted, C39_objects, C39_parsed_wf_partial, C39_same_without_formatting, C40_all, C40_continue_partial, C40_continue_refuted, C40_entries, C40_failure, C40_main_schedule, C40_schedule, C40_terminates, C40_unlisted, C41_empty_scope, C41_more_declarations, C41_nesting_bound, C42_attribute, C42_body, C42_expression, C42_to_string, C42_to_value_refuted, C43_escape_refuted, C43_scalars, C43_text_partial, C44_arithmetic_partial, C44_array, C44_both_operands, C44_comparison, C44_conditional, C44_conditional_needs_bool, C44_division, C44_equality, C44_failing_operand, C44_logic, C44_negation_partial, C44_not, C44_object, C44_parentheses, C44_wrong_operands, C44_wrong_unary, C45_attribute_partial, C45_body_partial, C45_expr_partial, C45_missing_span_refuted, C45_object_order_refuted, C45_template_partial, C46_bodies_partial, C46_directive_literal_refuted, C46_empty_array_refuted, C46_empty_heredoc_refuted, C46_equal_bodies_partial, C46_equal_expressions_partial, C46_expressions_partial, C46_for_return_refuted, C46_for_without_decor_refuted, C46_heredoc_in_quotes_refuted, C46_heredoc_indent_refuted, C46_heredoc_text_refuted, C46_literal_template_refuted, C46_nested_quotes_refuted, C46_object_keys_refuted, C46_one_meaning_partial, C46_operator_decor_refuted, C46_operators_refuted, C46_same_text_bodies_partial, C46_same_text_expressions_partial, C46_same_text_templates_partial, C46_templates_partial, C47_expressions_partial, C47_floats_refuted, C47_keys_refuted, C47_nested_option_refuted, C47_newtype_refuted, C47_values_partial, C48_block_none_refuted, C48_body_partial, C48_few_blocks_refuted, C48_keys_refuted, C48_layout, C48_text_partial, C48_top_level_refuted, C49_edit_partial, C50_body, C50_body_as_expression, C50_contents, C50_expression, C50_from_str_partial, C50_from_value_refuted, C50_label, C50_minus_zero_refuted, C50_structure, C50_structure_contents, C50_variable_refuted, C51_directive_literal_refuted, C51_documents_partial, C51_edited_documents_partial, C51_equal_documents_partial, C51_expressions_partial, C51_heredoc_in_quotes_refuted, C51_nested_quotes_refuted, C51_repeated_key_refuted, C51_templates_partial, C54_body, C54_expression, C54_in_place, C54_in_place_body, C54_in_place_template, C54_same_results, C54_same_results_in_place, C54_template, C55_attribute_partial, C55_block_partial, C55_body_partial, C55_body_value_refuted, C55_expression_partial, C55_last_value_refuted, C55_parenthesised_key_refuted, C55_raw_identifier_refuted, C55_structure_partial, C56_arguments_partial, C56_errors_partial, C56_lists_partial, C57_array_text_partial, C57_call_text_partial, C57_expand_without_arguments_refuted, C57_pushed_literals_refuted, C57_template_text_partial, C58_built_partial, C58_objects_partial, C58_parsed_partial, C58_store_refuted, C58_texts_partial, C59_expression, C59_f32_exact, C59_guarantees, C59_identifier_keys, C59_integers, C59_is_i64_refuted, C59_large_floats_refuted, C59_read_back, C59_serialized, C59_total, C59_value_partial
<!-- /assumptions -->

## What is modelled

* **hcl-primitives**: `number.rs`, `ident.rs`, `expr.rs`, `template.rs` (all functions with logic).
  Not: `internal_string.rs` (a string type), `de.rs`, `error.rs` (message type).
* **hcl-edit**: `parser/*` completely except the texts of the parts of error messages; `encode/*`; `structure/*`,
  `expr/object.rs`, the list methods of `expr/array.rs`, `expr/func_call.rs` and `template/mod.rs`, `template/mod.rs` (dedent), `raw_string.rs`, `repr.rs` (decor, span, despan),
  `util.rs`, `visit.rs`, `visit_mut.rs`, the `PartialEq` impls.  Not: iterators, `From` impls,
  builders and accessors without logic.
* **hcl-rs**: `expr/edit.rs`, `structure/edit.rs`, `template/edit.rs`, `format/*`, `eval/*`,
  `structure/json_spec.rs`, `value/from.rs`, the accessors of `value/mod.rs`, the construction macros of `macros.rs`, `ser/*`, `expr/ser`, `structure/ser`, `value/ser.rs`, `expr/de.rs` and
  `structure/de.rs` for self-describing targets (`Value`, `serde_json::Value`, the crate's own
  types) and for user types built from a universe of codes (`TyModel.v`).  Not: users' hand-written
  `Deserialize` implementations, serde attributes, the internal macros that define serializer methods (macros.rs:914-1222).
* **hcl2json**: `main.rs`: file selection, naming, bulk conversion, error handling.  Not: argument
  parsing, JSON text (the JSON value is modelled), the file system beyond a constant map from
  paths to contents.

### Parameters and simplifications

* *Evaluator*: the template parser, `Display` of values and of numbers are parameters of the
  evaluator's model; theorems hold for all of them.  C21, C43 and the formatter use the modelled parser.
  User functions are total, deterministic Coq functions.  Errors carry their kind; `BlameModel.v`
  is the same evaluator with the expression they are attached to (C54).  The texts of errors and of
  function calls are in MsgModel.v (C56).
* *Parser*: unicode tables and `f64::from_str` are parameters; texts are lists of Unicode scalars
  while offsets are counted in UTF-8 bytes (`Utf8.v`).  Recursion is fuelled; C15 proves that the
  fuel used suffices.  Stack overflow and memory exhaustion are not modelled.
* *Encoder, formatter*: the writer never fails; float printing (ryu) is a parameter.  The
  formatter's indent is a text, not bytes.
* *Serializers*: a `Serialize` implementation is the tree of calls it makes (`sd`), so it cannot
  branch on the serializer's answers except through `?`; the handle counter does not wrap around.
* *User types*: `Serialize` and `Deserialize` of the types in C47 and C48 (scalars, options, sequences,
  tuples, maps that keep insertion order, derived structs and enums) are not part of the repository;
  `TyModel.v` follows serde 1.0's documentation: struct visitors accept maps and sequences, unknown
  fields are ignored, a missing field is `None` if optional and an error otherwise, a repeated one is
  an error.  128-bit integers, `f32`, bytes and borrowed data are left out.
* *The crate's own types*: `OwnModel.v` models their derived `Deserialize` implementations and the
  deserializers of `serde::de::value` in the same way; recursion is fuelled, theorems hold for all
  sufficiently large amounts of fuel.
* *Macros*: an invocation is a list of Rust token trees; the splitting of tokens into Rust expressions
  (`$x:expr`) and what the generated code computes for a Rust expression are parameters.  A syntax error,
  a type error and a panic are all `None`.  rustc's recursion limit is not modelled.
* *hcl2json*: rayon's schedule is an arbitrary interleaving of the per-file steps.
* *Build profile*: overflow checks are on in `Debug` and off in `Release`; theorems quantify over
  both unless they say otherwise.

## Findings

Deviations of the code from the English properties, each proved as a `…_refuted` theorem about the
model (see the comments there for the witness).

* Numbers: `-0` becomes an ill-formed negative zero, `-(u64::MAX)` is 1 in release builds, `1/0` is
  infinite in release builds, sums of operands with different signs lose precision above 2^53,
  `from_f64(2^63)` is 2^63−1 (C01, C03, C04).
* `escape_markers` leaves `${b}` live in `${a}%${b}`; escaping and unescaping are not inverse (C07, C43).
* Storing an attribute through `Body::get_mut` can create two attributes with the same key (C08).
* Operator decor keeps spans after despanning (C12); `dedent` removes non-whitespace from an
  unindented first line that contains an interpolation, and white space of blank lines is lost (C13); error columns count bytes (C14).
* `-9223372036854775808` panics in debug builds (C15); chained comparisons such as `a == b == c`
  silently drop operands (C17).
* Printing a parsed text does not give it back (C16): unknown escape sequences and short `\u`
  escapes, trivia around binary and before traversal operators, entries with a repeated key (the
  printed text is not even HCL: `{a=1,b=2,a=3}` becomes `{a=3b=2,}`), tabs, blank lines and
  multi-line interpolations of indented heredocs, heredocs and strings nested in quoted templates,
  Windows line ends.
* The arguments of a call, the body of a one-line block, the parts of template directives and a
  template parsed on its own have no span; repeated keys put object entries out of order (C45).
* Trees built by programs which are not read back from their text (C46): `for` expressions without
  decor (`[for xin c : y]`), literals of directives in quoted templates, literals behind a nested
  quoted template, heredocs inside of quoted templates, object keys which are keywords or variables,
  empty heredocs (which swallow what follows), indented heredocs whose text is indented, heredocs whose
  text does not end with a line break or contains the delimiter, templates without interpolations,
  empty arrays with a trailing comma, operations which need parentheses, `for` before a carriage return.
* Equality of expressions ignores `FuncArgs::expand_final` but compares trailing commas, is not
  reflexive for objects with keys like `[1, ]` and not transitive for out-of-range numbers (C39);
  conversions between hcl-rs and hcl-edit lose the heredoc's strip mode, invalid templates,
  entries and attributes with equal keys (C36).
* The formatter: a reused formatter adds a blank line; object keys and strings with markers are not
  read back (C21–C23).  Quoted templates are printed without escapes: the document `a = "say \"${x}\""` is
  parsed and printed as `a = "say "${x}""`, which is not HCL, and `"C:\\new${x}"` becomes `"C:\new${x}"`
  with a line break.  A literal `$` before an interpolation is printed as `$${…}` (C21).  An indented heredoc
  is printed with its indentation already taken away, and behind `<<-` again: `<<-EOT`, `  foo ${x}`, `    bar`
  is parsed, printed and then read as `o ${x}`, `bar` (C13 takes characters away, `C21_dedented_refuted`).
* Evaluation in place merges object entries with equal simplified keys (C25); template loop
  variables are replaced by outer variables (C26); `OneOf([])` accepts nothing (C30), although messages call it `any` (C56); `1 % 0`
  panics (C32).
* Replacing an interpolation in a quoted template by a quoted template changes how the literals behind it
  are escaped, so that the string may end early (C49).
* Literals pushed one by one onto a template of hcl-edit are escaped one by one: `"$"` and `"{x}"` print as the
  interpolation `${x}` (C57).
* `Value::is_i64` is false for every integer that is not negative and `Value::is_f64` for every integer,
  contrary to their documentation (C59); `Value::from(1e19)` is 9223372036854775807 (C04, C59).
* User types (C47, C48): `from_value` refuses newtype structs, `to_value` refuses integer map keys; map
  keys which are newtypes or enum variants are written as HCL but not read; an `Option<T>` at the top
  level is written but not read; `Block<Vec<T>>` is read only if it has at least two elements, a
  `LabeledBlock` of an empty map is lost, `Block<Option<T>>` cannot be `None`; `Some(None)` becomes
  `None`; a `String` is read from any expression (`f = 1` gives `"${1}"`), surplus tuple elements
  are ignored.
* Own types (C50): a `Variable` cannot be deserialized from `Expression::Variable`, although every other
  variant can be read as its own type; `from_value::<Expression>` rejects everything except `"Null"`
  and objects whose first key is the name of a variant; `-0` is parsed as a number with `is_i64()`,
  and as one with `is_u64()` by `from_str::<Body>`.
* Printing a parsed document can change it or make it unreadable (C51): objects with repeated keys
  (`{a=1,b=2,a=3}` is printed as `{a=3b=2,}`), literals with escapes inside directives of quoted templates
  (`"%{if a}\t%{endif}"` doubles the backslash each time), literals with escapes behind a template inside
  of an interpolation, heredocs inside of quoted templates.
* JSON conversion loses blocks whose label path collides with an attribute (C34).
* Serializing the crate's own types at unexpected places leaks internal handles and yields
  `{ handle = 0 }` (C35); non-empty `Expression::Object` values cannot be serialized by `to_value` (C42).
* Visitors skip the collection of template `for` directives (C38).
* Macros (C55): `expression!({ a = -1 })` and `body!({ a = -1 })` do not compile (`{ a = -1, }` does); in
  `{ a = x (b) = y, }` the key `(b)` is taken for the arguments of a call; a raw identifier `r#type` as a
  label or object key makes an invalid identifier, as an attribute key it becomes `r_type`.
* One panicking file ends the whole bulk conversion (C40).
* With `--continue-on-error` hcl2json says that a directory with a listing error is ignored, but converts the files it had listed before the error (visible in `expand`, C40).

## Testing the theorems

`seeded/LOG.jsonl` records every edit of the model that was tried (`tools/mutate.py` applies the
edits of `seeded/mutants*.json` to a scratch copy, admits the proofs which fail and reports the
theorems which depend on them).
