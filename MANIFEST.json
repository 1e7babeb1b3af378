{
 "claims": [
  {
   "property": "C01",
   "status": "proved",
   "theorems": [
    "parse_is_total"
   ],
   "note": ""
  },
  {
   "property": "C02",
   "status": "proved",
   "theorems": [
    "valid_text_outcome",
    "valid_text_never_misread",
    "valid_text_accepted_iff",
    "not_every_valid_text_is_accepted",
    "not_every_empty_array_is_accepted"
   ],
   "note": "The unconditional claim is refuted by the last two theorems; the exact condition is proved."
  },
  {
   "property": "C03",
   "status": "proved",
   "theorems": [
    "parse_accepts_exactly",
    "not_only_valid_texts_are_accepted",
    "garbage_not_valid"
   ],
   "note": "The strict claim is refuted; the accepted language is characterised exactly."
  },
  {
   "property": "C04",
   "status": "proved",
   "theorems": [
    "literals_and_strings_exact"
   ],
   "note": ""
  },
  {
   "property": "C05",
   "status": "proved",
   "theorems": [
    "surrounding_space_irrelevant"
   ],
   "note": ""
  },
  {
   "property": "C06",
   "status": "proved",
   "theorems": [
    "parsed_values_well_formed"
   ],
   "note": ""
  },
  {
   "property": "C07",
   "status": "proved",
   "theorems": [
    "number_text_correctly_rounded",
    "denoted_double_correctly_rounded"
   ],
   "note": ""
  },
  {
   "property": "C08",
   "status": "proved",
   "theorems": [
    "duplicate_keys_in_order"
   ],
   "note": ""
  },
  {
   "property": "C09",
   "status": "proved",
   "theorems": [
    "print_parse_round_trip"
   ],
   "note": ""
  },
  {
   "property": "C10",
   "status": "proved",
   "theorems": [
    "printed_never_misread"
   ],
   "note": ""
  },
  {
   "property": "C11",
   "status": "proved",
   "theorems": [
    "printed_text_is_printable_ascii"
   ],
   "note": ""
  },
  {
   "property": "C12",
   "status": "proved",
   "theorems": [
    "printing_ignores_iteration_order",
    "printed_members_ascending"
   ],
   "note": ""
  },
  {
   "property": "C13",
   "status": "proved",
   "theorems": [
    "printed_text_is_valid_json",
    "nan_and_infinity_print_invalid_json"
   ],
   "note": ""
  },
  {
   "property": "C14",
   "status": "proved",
   "theorems": [
    "string_text_round_trip"
   ],
   "note": ""
  },
  {
   "property": "C15",
   "status": "proved",
   "theorems": [
    "number_text_round_trip",
    "nonfinite_numbers_do_not_decode"
   ],
   "note": ""
  },
  {
   "property": "C16",
   "status": "proved",
   "theorems": [
    "string_text_exact",
    "lone_surrogate_rejected"
   ],
   "note": ""
  },
  {
   "property": "C17",
   "status": "proved",
   "theorems": [
    "find_navigates",
    "find_error_of_first_impossible_step",
    "get_navigates"
   ],
   "note": ""
  },
  {
   "property": "C18",
   "status": "proved",
   "theorems": [
    "update_then_find",
    "set_then_get",
    "update_then_find_below"
   ],
   "note": ""
  },
  {
   "property": "C19",
   "status": "proved",
   "theorems": [
    "update_keeps_other_locations",
    "update_creates_only_padding",
    "update_passes_objects",
    "update_passes_arrays"
   ],
   "note": ""
  },
  {
   "property": "C20",
   "status": "proved",
   "theorems": [
    "update_outcome",
    "update_succeeds"
   ],
   "note": ""
  },
  {
   "property": "C21",
   "status": "proved",
   "theorems": [
    "discard_returns_find",
    "del_returns_get"
   ],
   "note": ""
  },
  {
   "property": "C22",
   "status": "proved",
   "theorems": [
    "discard_removes",
    "discard_keeps_other_locations",
    "discard_passes_objects"
   ],
   "note": ""
  },
  {
   "property": "C23",
   "status": "proved",
   "theorems": [
    "failed_discard_changes_nothing",
    "failed_del_changes_nothing",
    "failed_set_changes_nothing",
    "failed_edit_changes_nothing"
   ],
   "note": ""
  },
  {
   "property": "C24",
   "status": "proved",
   "theorems": [
    "path_text_meaning",
    "paths_with_a_text",
    "path_macro_meaning"
   ],
   "note": ""
  },
  {
   "property": "C25",
   "status": "proved",
   "theorems": [
    "get_path_syntax_error_iff",
    "del_path_syntax_error_iff",
    "set_path_syntax_error_iff",
    "get_never_panics"
   ],
   "note": ""
  },
  {
   "property": "C26",
   "status": "proved",
   "theorems": [
    "objects_are_multimaps",
    "object_lookup",
    "object_determined_by_values",
    "object_macro_values",
    "object_ops_need_objects"
   ],
   "note": ""
  },
  {
   "property": "C27",
   "status": "proved",
   "theorems": [
    "array_op_is_list_op",
    "arrays_are_sequences",
    "array_ops_need_arrays",
    "array_macro_elements"
   ],
   "note": ""
  },
  {
   "property": "C28",
   "status": "proved",
   "theorems": [
    "text_get_after_set",
    "text_set_keeps_others",
    "text_set_outcome",
    "text_set_inv",
    "text_del_outcome",
    "text_del_result"
   ],
   "note": "The document that set prints may not be readable again (brackets in strings); then every read of it fails, none is wrong."
  },
  {
   "property": "C29",
   "status": "proved",
   "theorems": [
    "json_round_trip",
    "string_round_trip",
    "bool_round_trip",
    "f64_round_trip"
   ],
   "note": ""
  },
  {
   "property": "C30",
   "status": "proved",
   "theorems": [
    "integer_to_nearest_double",
    "integer_round_trip_iff",
    "small_integers_round_trip",
    "narrow_integers_round_trip",
    "wide_integers_do_not",
    "f32_round_trip",
    "f32_to_same_number"
   ],
   "note": ""
  },
  {
   "property": "C31",
   "status": "proved",
   "theorems": [
    "number_to_integer",
    "number_to_nearest_f32"
   ],
   "note": ""
  },
  {
   "property": "C32",
   "status": "proved",
   "theorems": [
    "vec_round_trips",
    "option_round_trips",
    "some_null_is_lost"
   ],
   "note": ""
  },
  {
   "property": "C33",
   "status": "proved",
   "theorems": [
    "map_round_trips",
    "pairs_round_trips",
    "keys_read_back"
   ],
   "note": ""
  },
  {
   "property": "C34",
   "status": "proved",
   "theorems": [
    "converts_iff_fits",
    "fails_with_the_first_error",
    "conversion_errors_are_convert_errors",
    "conversions_are_total",
    "converted_value"
   ],
   "note": ""
  },
  {
   "property": "C35",
   "status": "proved",
   "theorems": [
    "decode_encode",
    "unbalanced_encoding_fails",
    "values_round_trip",
    "to_json_legal"
   ],
   "note": ""
  },
  {
   "property": "C36",
   "status": "proved",
   "theorems": [
    "derived_round_trips",
    "derived_text_round_trip",
    "derived_to_json_is_an_object",
    "shared_key_reads_last"
   ],
   "note": "Over the generated code given the list of fields; the field list is read from tokens in Tokens.v."
  },
  {
   "property": "C37",
   "status": "proved",
   "theorems": [
    "derived_reads",
    "derived_fails",
    "derived_is_total"
   ],
   "note": ""
  },
  {
   "property": "C38",
   "status": "proved",
   "theorems": [
    "index_panics_iff_find_fails",
    "index_mut_panics_iff_find_fails"
   ],
   "note": ""
  },
  {
   "property": "C39",
   "status": "proved",
   "theorems": [
    "last_write_wins",
    "set_last_write_wins"
   ],
   "note": ""
  },
  {
   "property": "C40",
   "status": "proved",
   "theorems": [
    "to_string_injective",
    "text_denotes_one_value"
   ],
   "note": ""
  },
  {
   "property": "C41",
   "status": "proved",
   "theorems": [
    "find_mut_reads_and_writes",
    "find_mut_writes_only_there",
    "find_mut_keeps_members",
    "find_mut_agrees_with_find"
   ],
   "note": ""
  },
  {
   "property": "C42",
   "status": "proved",
   "theorems": [
    "update_keeps_well_formed",
    "update_keeps_finite",
    "discard_keeps_well_formed",
    "discard_keeps_finite",
    "edits_keep_well_formed"
   ],
   "note": ""
  },
  {
   "property": "C43",
   "status": "proved",
   "theorems": [
    "rejected_texts_have_exactly_this_error",
    "every_text_is_read_or_blamed",
    "parse_errors_are_in_the_table",
    "every_table_entry_occurs"
   ],
   "note": ""
  },
  {
   "property": "C44",
   "status": "proved",
   "theorems": [
    "find_error_text",
    "find_mut_error_text",
    "discard_error_text",
    "get_error_text",
    "del_error_text",
    "set_error_text",
    "object_op_error_text",
    "merge_error_text",
    "array_op_error_text"
   ],
   "note": ""
  },
  {
   "property": "C45",
   "status": "proved",
   "theorems": [
    "keys_are_read_as_these_texts",
    "keys_are_written_as_these_texts"
   ],
   "note": "Key texts of String, bool, char, the twelve integer types and f64; the standard library's FromStr and Display are modelled by their documented contracts."
  },
  {
   "property": "C46",
   "status": "proved",
   "theorems": [
    "values_are_written_in_this_form"
   ],
   "note": ""
  },
  {
   "property": "C47",
   "status": "proved",
   "theorems": [
    "derived_writer_covers_the_declared_fields",
    "derived_reader_covers_the_declared_fields",
    "generated_code_is_for_the_described_fields"
   ],
   "note": "Supported syntax: SpecTokens.v with all attributes of SpecAttr.v. The textual substitution done by the quote crate is trusted."
  },
  {
   "property": "C48",
   "status": "proved",
   "theorems": [
    "derived_reader_covers_the_declared_fields",
    "lifetimes_in_arguments_are_glued",
    "reference_marks_move_before_the_name"
   ],
   "note": ""
  },
  {
   "property": "C49",
   "status": "proved",
   "theorems": [
    "derived_header_repeats_the_parameters",
    "derived_header_in_general",
    "constants_and_defaults_spoil_the_header",
    "constant_defaults_are_refused"
   ],
   "note": "For parameters without constants and defaults the header is the right one; what comes out for the others, and that it is never the right one, is proved too."
  },
  {
   "property": "C50",
   "status": "proved",
   "theorems": [
    "both_macros_agree",
    "only_structs_with_fields_are_accepted",
    "empty_structs_are_rejected"
   ],
   "note": ""
  },
  {
   "property": "C51",
   "status": "proved",
   "theorems": [
    "string_literals_denote_one_string",
    "every_field_has_one_key",
    "keys_must_be_strings",
    "derived_writer_covers_the_declared_fields",
    "keys_ending_in_a_quote_are_broken",
    "raw_keys_with_backslashes_change",
    "raw_key_r_is_lost",
    "raw_identifiers_keep_their_mark"
   ],
   "note": ""
  },
  {
   "property": "C52",
   "status": "proved",
   "theorems": [
    "printed_number_is_shortest",
    "printed_number_digits"
   ],
   "note": "SpecShortest: shortest, closest, ties up, plain notation; iff, so the text is unique"
  },
  {
   "property": "C53",
   "status": "proved",
   "theorems": [
    "printed_layout",
    "layout_is_unique",
    "printed_text_is_determined"
   ],
   "note": "SpecLayout: rule-based text, proved equal to to_string for every legal value"
  },
  {
   "property": "C54",
   "status": "proved",
   "theorems": [
    "equality_decides",
    "equality_is_an_equivalence",
    "equality_ignores_only_order_and_zero_signs",
    "equal_after_round_trip"
   ],
   "note": ""
  },
  {
   "property": "C55",
   "status": "proved",
   "theorems": [
    "error_text_determines_error",
    "error_text_parts",
    "error_text_is_name_and_message"
   ],
   "note": ""
  },
  {
   "property": "C56",
   "status": "proved",
   "theorems": [
    "lookups_ignore_iteration_order",
    "mapless_conversions_ignore_order",
    "conversions_ignore_order",
    "exact_keys_are_unambiguous",
    "derived_conversions_ignore_order",
    "decoding_ignores_order",
    "order_is_visible_in_colliding_keys_and_errors"
   ],
   "note": "order_is_visible... shows the two exceptions are real"
  },
  {
   "property": "C57",
   "status": "proved",
   "theorems": [
    "recursion_depth",
    "enough_frames",
    "needs_unique",
    "recursion_is_not_bounded"
   ],
   "note": "needs s n: the least call depth with which the fuelled parser answers"
  },
  {
   "property": "C58",
   "status": "proved",
   "theorems": [
    "counters_do_not_overflow",
    "debug_build_answers_or_panics",
    "release_build_never_panics",
    "one_bracket_too_many",
    "wrapped_counters_can_be_right"
   ],
   "note": "Parse32.v: same loops with i32 arithmetic"
  },
  {
   "property": "C59",
   "status": "proved",
   "theorems": [
    "counting_changes_nothing",
    "reading_cost",
    "reading_cost_is_quadratic"
   ],
   "note": "Cost.v: the parser instrumented with a count of characters read; leaf parsers charged two per character"
  },
  {
   "property": "C60",
   "status": "proved",
   "theorems": [
    "templates_stand_for_their_meaning",
    "meanings_are_unique",
    "templates_are_compositional",
    "code_without_hashes_is_copied",
    "plus_is_no_separator"
   ],
   "note": "Quote.v: the rules of __append_to_token! in their order; the @ forms are not modelled"
  },
  {
   "property": "C61",
   "status": "proved",
   "theorems": [
    "writer_code_for_any_tokens",
    "reader_code_for_any_tokens",
    "json_encode_generates",
    "json_decode_generates",
    "digits_value"
   ],
   "note": "Macros.v: the two templates as written in the source, expanded by the model of quote!"
  },
  {
   "property": "C62",
   "status": "proved",
   "theorems": [
    "generated_to_json_runs",
    "generated_from_json_runs",
    "generated_code_round_trips",
    "string_values_are_as_specified"
   ],
   "note": "SpecRust.v: parser and evaluator for the Rust subset of the generated code"
  },
  {
   "property": "C63",
   "status": "proved",
   "theorems": [
    "structs_are_read_as_written",
    "some_bodies_are_refused"
   ],
   "note": "Items.v/Tokens.v: StructItem::parse in all its forms"
  },
  {
   "property": "C64",
   "status": "proved",
   "theorems": [
    "enums_are_read_as_written",
    "negative_values_depend_on_the_compiler",
    "values_are_texts_of_integers",
    "empty_enums_are_refused"
   ],
   "note": "Items.v; TokenStream::to_string is a parameter"
  },
  {
   "property": "C65",
   "status": "proved",
   "theorems": [
    "functions_are_read_as_written",
    "results_with_calls_depend_on_the_compiler",
    "functions_without_parameters_are_refused",
    "paths_in_parameter_types_are_refused",
    "bare_extern_is_forgotten",
    "mut_parameters_are_called_mut"
   ],
   "note": "Items.v; TokenStream::to_string is a parameter"
  },
  {
   "property": "C66",
   "status": "proved",
   "theorems": [
    "macros_take_structs_with_named_fields",
    "macros_refuse_enums",
    "macros_refuse_functions",
    "macros_refuse_other_structs"
   ],
   "note": ""
  },
  {
   "property": "C67",
   "status": "proved",
   "theorems": [
    "struct_texts_read_back",
    "enum_texts_read_back",
    "function_texts_read_back",
    "where_clause_of_a_unit_struct_is_lost"
   ],
   "note": "texts are taken as the tokens they are read back as"
  },
  {
   "property": "C68",
   "status": "proved",
   "theorems": [
    "literals_read_as_written",
    "literals_refused",
    "whole_numbers",
    "unclear_texts_are_cut",
    "literal_accessors"
   ],
   "note": "SpecMeta.v: the literals of the Rust reference"
  },
  {
   "property": "C69",
   "status": "proved",
   "theorems": [
    "attributes_read_exactly",
    "attributes_mean_one_thing",
    "attribute_lists_read",
    "attributes_are_looked_for",
    "no_tokens_are_refused",
    "item_accessors",
    "attributes_token_num"
   ],
   "note": ""
  },
  {
   "property": "C70",
   "status": "proved",
   "theorems": [
    "attribute_text",
    "attribute_text_reads_back",
    "attribute_text_changes"
   ],
   "note": "texts are taken as the tokens they are read back as"
  },
  {
   "property": "C71",
   "status": "proved",
   "theorems": [
    "get_finds",
    "derive_looks_up_keys_by_get",
    "idents_in_order",
    "literals_in_order",
    "pairs_have_the_last",
    "groups_have_the_last",
    "maps_have_each_key_once",
    "get_and_pairs_agree"
   ],
   "note": "Meta.v: the accessors of Meta"
  },
  {
   "property": "C72",
   "status": "proved",
   "theorems": [
    "translate_gives_meaning",
    "translate_settles",
    "meaning_unique",
    "nothing_left",
    "nothing_left_inside",
    "hashless_unchanged",
    "nonrecursive_returns",
    "recursive_never_returns",
    "self_reference_never_returns",
    "wrong_arguments_panic"
   ],
   "note": "Translate.v: __translate and split_tokens_by with a comma; running time is modelled as a number of nested calls; nothing_left_inside needs the values to have no references in their groups (left_inside_group shows why)"
  },
  {
   "property": "C73",
   "status": "proved",
   "theorems": [
    "forms_give_meaning",
    "forms_settle",
    "forms_meaning_unique",
    "templates_as_before",
    "literal_copies",
    "literal_at_top",
    "params_at_top",
    "scope_at_top",
    "span_changes_nothing",
    "last_option_counts",
    "only_spans_change_nothing",
    "unknown_option_fails",
    "unknown_modifier_is_copied",
    "empty_forms_are_copied"
   ],
   "note": "QuoteAt.v: the forms of quote! with an at sign"
  },
  {
   "property": "C74",
   "status": "proved",
   "theorems": [
    "scope_gives_meaning",
    "scope_meaning_unique",
    "every_true_branch_comes_out",
    "exclusive_branches",
    "if_else_takes_one",
    "clause_needs_if",
    "clause_after_endif",
    "nested_conditions_fail",
    "only_blocks_in_loops",
    "endfor_needs_loop",
    "endfor_after_endfor",
    "nothing_after_end",
    "unknown_command_fails"
   ],
   "note": "QuoteAt.v: the commands of @scope"
  },
  {
   "property": "C75",
   "status": "proved",
   "theorems": [
    "these_are_the_operations",
    "histories_are_those_of_the_model",
    "no_program_sees_the_order",
    "programs_get_the_answers_of_the_methods",
    "histories_grow"
   ],
   "note": "AnyMap.v: the editing operations over an arbitrary hash map; conversions to Rust types are C56"
  },
  {
   "property": "C76",
   "status": "proved",
   "theorems": [
    "updates_commute",
    "updates_commute_in_sequence",
    "sets_commute",
    "update_and_discard_commute",
    "discards_commute",
    "deleting_elements_in_either_order",
    "edits_of_different_members_commute"
   ],
   "note": "examples show that the kinds of the parting steps and the last index of a deletion matter"
  },
  {
   "property": "C77",
   "status": "proved",
   "theorems": [
    "discard_undoes_update",
    "update_undoes_discard",
    "update_with_the_value_there",
    "del_undoes_set",
    "set_undoes_del",
    "delete_undoes_insert",
    "insert_undoes_delete",
    "remove_undoes_push",
    "replace_undoes_replace"
   ],
   "note": "an example shows that older duplicates are lost"
  },
  {
   "property": "C78",
   "status": "proved",
   "theorems": [
    "conversions_are_the_generated_code",
    "the_generated_code_determines_the_conversions",
    "recursive_values_round_trip",
    "recursive_text_round_trip",
    "recursive_conversions_are_total",
    "recursive_struct_reads",
    "recursive_struct_fails"
   ],
   "note": "Types.v: programs of struct declarations; types with parameters stand with their arguments filled in"
  },
  {
   "property": "C79",
   "status": "proved",
   "theorems": [
    "parsing_does_not_amplify",
    "printing_is_linear",
    "number_length",
    "found_values_are_smaller",
    "writing_exchanges",
    "deletion_takes_away",
    "setting_adds_what_is_named",
    "an_index_costs_its_value",
    "methods_change_sizes",
    "reprinting_is_linear",
    "text_set_is_linear",
    "text_del_is_linear",
    "encoding_is_linear"
   ],
   "note": "SpecSize.v: bytes, weight, numbers, path_weight; examples reach the bounds"
  },
  {
   "property": "C80",
   "status": "proved",
   "theorems": [
    "truncated_document_rejected",
    "extended_document_rejected",
    "document_end_determined",
    "truncated_output_rejected",
    "extended_output_rejected",
    "output_self_delimiting",
    "part_of_number_accepted",
    "anything_after_empty_container"
   ],
   "note": "the statements use the RFC grammar of SpecGrammar.v only; the exceptions are theorems too"
  },
  {
   "property": "C81",
   "status": "proved",
   "theorems": [
    "at_most_is_le",
    "number_texts_keep_order",
    "number_texts_reflect_order",
    "same_number_same_value",
    "smaller_numbers_accepted",
    "printed_numbers_keep_order",
    "number_to_integer_keeps_order",
    "integer_to_number_keeps_order",
    "integer_to_integer_keeps_order",
    "number_to_f32_keeps_order",
    "f32_to_number_keeps_order"
   ],
   "note": "order stated over the reals (SpecMonotone.v); at_most_is_le relates it to the IEEE comparison"
  },
  {
   "property": "C82",
   "status": "proved",
   "theorems": [
    "unknown_members_are_ignored",
    "smaller_struct_reads",
    "ignored_fields_are_default",
    "declaration_order_is_irrelevant",
    "derived_shows",
    "same_fields_same_json",
    "newer_documents_read",
    "older_documents_lack"
   ],
   "note": "covers: every field the reader reads is declared by the writer with the same key, type and conversions"
  },
  {
   "property": "C83",
   "status": "proved",
   "theorems": [
    "operations_ignore_scalars",
    "equal_values_behave_equally",
    "equal_values_print_alike",
    "equal_values_convert_alike",
    "equal_numbers_convert_alike"
   ],
   "note": "documents as in memory (wf); zeros is the example of equal values that print differently"
  },
  {
   "property": "C84",
   "status": "proved",
   "theorems": [
    "arrays_are_joined",
    "objects_are_joined",
    "merged_object_is_unique",
    "later_text_wins",
    "absent_key_stays",
    "array_texts_come_apart",
    "array_texts_come_apart_one_way",
    "object_texts_come_apart",
    "printed_values_assemble",
    "printed_members_assemble",
    "accepted_texts_need_not_nest",
    "empty_parts_do_not_join"
   ],
   "note": "accepted_texts_need_not_nest: the text of the string [ is accepted alone, but not between brackets (the scanner counts brackets inside strings)"
  },
  {
   "property": "C85",
   "status": "proved",
   "theorems": [
    "values_have_their_text",
    "pushing_is_writing",
    "removing_is_cutting",
    "appending_is_writing",
    "deleting_is_cutting",
    "printed_values_are_parts",
    "not_every_text_is_a_part"
   ],
   "note": "JSON texts the parser accepts are SupportedText (C02, valid_text_accepted_iff); not_every_text_is_a_part: the text of the string [ is JSON but cannot be written inside a document; a key written several times has several stretches, deleting it is not one cut"
  },
  {
   "property": "C86",
   "status": "proved",
   "theorems": [
    "minified_text_denotes_the_same",
    "minified_texts_are_accepted",
    "minifying_keeps_acceptance",
    "layout_does_not_matter",
    "same_tokens_same_parse",
    "minified_is_minified",
    "printed_then_minified"
   ],
   "note": "minifying is a small function of the specification (SpecMinify), not of the code"
  },
  {
   "property": "C87",
   "status": "proved",
   "theorems": [
    "rows_of_members",
    "members_may_be_reordered",
    "rows_of_elements"
   ],
   "note": "members and elements as in C84; reordering_case shows repeated keys"
  },
  {
   "property": "C88",
   "status": "proved",
   "theorems": [
    "what_is_read",
    "reading_succeeds_iff",
    "what_it_becomes_is_determined",
    "types_may_change",
    "other_types_fail",
    "text_at_another_type",
    "own_type_gives_it_back",
    "some_of_it",
    "out_of_some",
    "everything_is_json",
    "integers_are_clamped",
    "wider_integers",
    "integers_as_floats",
    "floats_as_wider_floats",
    "lists_element_by_element",
    "maps_as_pairs",
    "maps_as_maps",
    "kinds_do_not_mix",
    "types_are_read_at",
    "fields_may_change_types",
    "documents_outlive_types"
   ],
   "note": "key texts are those of std's Display and FromStr as modelled in Convert.v"
  },
  {
   "property": "C89",
   "status": "proved",
   "theorems": [
    "text_get_decodes_a_stretch",
    "text_set_replaces_a_stretch",
    "text_del_cuts_a_stretch",
    "repeated_keys_have_several_stretches"
   ],
   "note": "formatted means printed by to_string from its parse; values written must be finite and their strings must have as many opening as closing brackets, else the new text may be unreadable (C28, C85)"
  },
  {
   "property": "C90",
   "status": "proved",
   "theorems": [
    "text_edits_are_document_edits",
    "reading_after_text_edits",
    "text_set_of_any_type",
    "unbalanced_edits_end_the_series"
   ],
   "note": "values written are given as the Json value to_json makes of them (text_set_of_any_type), in the order of stored objects; C75 shows that the order cannot be seen"
  }
 ]
}