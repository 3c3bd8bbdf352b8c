{
 "claims": [
  {
   "property": "C01",
   "status": "proved",
   "theorems": [
    "C01_map_is_dictionary",
    "C01_get_is_latest",
    "C01_map_of_data_is_dictionary"
   ],
   "note": "All operation sequences of the pointer level model against the dictionary specification; With and ToMap are covered by C03 and C04. The third theorem instantiates keys with data values, so that no law of Equals/HashCode is assumed."
  },
  {
   "property": "C02",
   "status": "partial",
   "theorems": [
    "C02_iteration_consistent_partial",
    "C04_repeated_key_refuted"
   ],
   "note": "holds for all histories without ToMap on repeated keys; false after ToMap on repeated keys"
  },
  {
   "property": "C03",
   "status": "partial",
   "theorems": [
    "C03_pure_operations_partial",
    "C03_with_nil_refuted"
   ],
   "note": "false for With(k, Nil) with an absent key on a map with a table: the receiver is returned"
  },
  {
   "property": "C04",
   "status": "partial",
   "theorems": [
    "C04_map_from_list_partial",
    "C04_map_from_entries_partial",
    "C04_repeated_key_refuted",
    "C04_entries_of_a_map_refuted"
   ],
   "note": "proved for pairwise different keys given as pairs; false for repeated keys and for entries of a map, which are relinked in place"
  },
  {
   "property": "C05",
   "status": "proved",
   "theorems": [
    "C05_frozen_map_rejects_mutation",
    "C05_frozen_map_immutable_partial",
    "C05_entries_of_a_frozen_map_refuted"
   ],
   "note": "As stated, in full, for all histories. More than the claim, that nothing else changes a frozen map either, is proved for histories without ToMap on repeated keys and With(k, Nil), and false for ToMapFromEntries, which relinks the entries of a frozen map."
  },
  {
   "property": "C06",
   "status": "proved",
   "theorems": [
    "C06_equals_equivalence"
   ],
   "note": "All finite data values without NaN (nil, bool, int, float, string, binary, time, regexp, sensitive, array, map)."
  },
  {
   "property": "C07",
   "status": "proved",
   "theorems": [
    "C07_equal_values_equal_hash"
   ],
   "note": "All finite data values without NaN."
  },
  {
   "property": "C08",
   "status": "proved",
   "theorems": [
    "C08_map_equality",
    "C08_order_ignored",
    "C08_nil_is_not_absent"
   ],
   "note": ""
  },
  {
   "property": "C09",
   "status": "partial",
   "theorems": [
    "C09_equal_types_equal_hash_partial",
    "C09_same_order_equal_hash_partial",
    "C09_any_of_order_refuted",
    "C09_empty_tuple_refuted",
    "C09_tuple_of_sensitive_refuted"
   ],
   "note": "False for alternatives in different order and for tuples that equal types of values. Proved for types without a choice of order, and for all types whose members agree in order."
  },
  {
   "property": "C10",
   "status": "partial",
   "theorems": [
    "C10_equals_terminates",
    "C10_compare_terminates",
    "C10_hash_terminates",
    "C10_bisimilar_values_are_equal",
    "C10_equals_symmetric_partial",
    "C10_equals_of_finite_values",
    "C10_hash_of_finite_values",
    "C10_compare_of_finite_values",
    "C10_equals_with_finite_receiver",
    "C10_symmetric_refuted",
    "C10_equal_values_equal_hash_refuted",
    "C10_compare_refuted"
   ],
   "note": "Termination holds for all finite graphs of arrays, maps and sensitive values. Symmetry is false for values that contain themselves (C10_symmetric_refuted) and proved for all others, with any sharing. Bisimilar values are always Equal; a finite receiver is Equal to bisimilar values only."
  },
  {
   "property": "C100",
   "status": "partial",
   "theorems": [
    "C100_alias_round_trip_partial",
    "C100_names_restored_partial",
    "C100_others_kept",
    "C100_unnamed_refuted",
    "C100_names_restored_refuted"
   ],
   "note": "Missing: types without a name (lost, C100_unnamed_refuted), two types with one name (C100_names_restored_refuted), and one object or type in two places. Parsing of the texts of types is an oracle; constructors are assumed to invert extractors as in C77."
  },
  {
   "property": "C101",
   "status": "partial",
   "theorems": [
    "C101_key_stays",
    "C101_tomap_partial",
    "C101_tomap_refuted"
   ],
   "note": "Proved for maps filled by Put. For maps made by ToMap, the arrays that are keys must not be changed: ToMap stores them without a copy (refuted)."
  },
  {
   "property": "C102",
   "status": "partial",
   "theorems": [
    "C102_equals_meaning",
    "C102_equivalence_partial",
    "C102_symmetric_partial",
    "C102_frozen_copy_partial",
    "C102_constant_partial",
    "C102_struct_keys_lost",
    "C102_symmetric_refuted",
    "C102_frozen_copy_refuted",
    "C102_constant_refuted",
    "C102_keys_refuted"
   ],
   "note": "Proved: the meaning of Equals, reflexivity, transitivity, hash codes, and that the copy is frozen and equals the entry. Symmetry, equality of a struct entry with its copy, constancy with mutable keys, and finding struct entries as keys are refuted; exact conditions are proved instead."
  },
  {
   "property": "C11",
   "status": "proved",
   "theorems": [
    "C11_total_order",
    "C11_arrays_lexicographic",
    "C11_bytes_lexicographic",
    "C11_nil_is_least"
   ],
   "note": "Arrays nested to any depth over one kind, nil allowed anywhere."
  },
  {
   "property": "C12",
   "status": "partial",
   "theorems": [
    "C12_mixed_antisymmetric",
    "C12_smaller_transitive_partial",
    "C12_transitive_partial",
    "C12_transitive_refuted"
   ],
   "note": "Transitivity of \"equal\" fails above 2^53 (refuted); proved up to 2^53, and for \"smaller\" on all 64 bit integers."
  },
  {
   "property": "C13",
   "status": "partial",
   "theorems": [
    "C13_sort_partial",
    "C13_kinds",
    "C13_insertion_sort",
    "C13_sort_refuted"
   ],
   "note": "Proved for arrays whose elements are pairwise consistently comparable; false for nil together with maps or sensitives (refuted). More than 20 elements are sorted by the Go library, whose result is determined by the uniqueness part."
  },
  {
   "property": "C14",
   "status": "proved",
   "theorems": [
    "C14_mutable_array_is_list"
   ],
   "note": ""
  },
  {
   "property": "C15",
   "status": "proved",
   "theorems": [
    "C15_unique",
    "C15_unique_data"
   ],
   "note": ""
  },
  {
   "property": "C16",
   "status": "proved",
   "theorems": [
    "C16_flatten"
   ],
   "note": ""
  },
  {
   "property": "C17",
   "status": "partial",
   "theorems": [
    "C17_same_values",
    "C17_contains_all_partial",
    "C17_contains_all_refuted"
   ],
   "note": "SameValues proved; ContainsAll is wrong when the receiver is longer (refuted)."
  },
  {
   "property": "C18",
   "status": "partial",
   "theorems": [
    "C18_frozen_unchanged_partial",
    "C18_frozen_unchanged_refuted",
    "C18_frozen_with_refuted"
   ],
   "note": "False: With and WithValues append into the spare capacity of a shared backing array. Proved for histories where With and WithValues are called on arrays without spare capacity."
  },
  {
   "property": "C19",
   "status": "partial",
   "theorems": [
    "C19_arrays_are_independent_partial",
    "C19_no_interference_partial",
    "C19_no_interference_refuted",
    "C19_slice_bounds_refuted"
   ],
   "note": "False for the same reason; proved for histories without spare capacity."
  },
  {
   "property": "C20",
   "status": "partial",
   "theorems": [
    "C20_freeze_deep_final_partial",
    "C20_with_refuted",
    "C20_map_with_refuted",
    "C20_with_all_refuted",
    "C20_entry_refuted",
    "C20_own_entry_refuted"
   ],
   "note": "Proved for all programs, cyclic values included, that use With and WithAll on mutable containers only and do not use entries of maps as values: Freeze ends, is deep, keeps what is observed, and nothing changes later. False without these conditions: With, map With and WithAll of frozen containers make frozen containers with mutable contents which Freeze does not look into, an entry that is an element of a frozen array changes with its map, and an entry that is its own value makes Freeze run forever."
  },
  {
   "property": "C21",
   "status": "partial",
   "theorems": [
    "C21_frozen_copy_partial",
    "C21_frozen_copy_ends",
    "C21_with_refuted",
    "C21_cyclic_refuted"
   ],
   "note": "Proved under the conditions of C20; it ends for every finite value. False for frozen arrays made by With; does not end for cyclic values."
  },
  {
   "property": "C22",
   "status": "partial",
   "theorems": [
    "C22_thawed_copy_partial",
    "C22_thawed_copy_ends",
    "C22_entry_refuted",
    "C22_key_refuted",
    "C21_cyclic_refuted"
   ],
   "note": "Proved under the conditions of C20, in both directions; it ends for every finite value. False for entries, whose ThawedCopy assigns to the original, and for keys made by With, which are shared although a part is mutable."
  },
  {
   "property": "C23",
   "status": "proved",
   "theorems": [
    "C23_value_is_instance_of_its_type"
   ],
   "note": "for types and values that do not refer to themselves"
  },
  {
   "property": "C24",
   "status": "partial",
   "theorems": [
    "C24_assignable_sound_partial",
    "C24_assignable_sound_without_hit_partial",
    "C24_guard_alternatives_refuted",
    "C24_guard_tuples_refuted",
    "C24_guard_elements_refuted",
    "C24_guard_tuple_member_refuted",
    "C24_sized_string_dgo_refuted",
    "C24_sized_string_ci_refuted",
    "C24_element_all_of_refuted",
    "C24_variadic_refuted",
    "C24_one_of_refuted",
    "C24_not_refuted",
    "C24_not_any_of_refuted",
    "C24_map_open_struct_refuted",
    "C24_struct_open_struct_refuted",
    "C24_all_of_value_refuted"
   ],
   "note": "sound on a large class of types; false in general, fourteen witnesses"
  },
  {
   "property": "C25",
   "status": "partial",
   "theorems": [
    "C25_assignable_reflexive",
    "C25_assignable_transitive_partial",
    "C25_structural_transitive_partial",
    "C25_float_alternatives_refuted",
    "C25_sized_string_refuted",
    "C25_one_of_copy_refuted",
    "C25_map_struct_refuted",
    "C25_variadic_refuted",
    "C25_open_struct_refuted"
   ],
   "note": "Reflexivity proved for all types; transitivity is false in general and proved for types without alternatives: with sized arrays and maps, or with tuples (variadic only in the first type) and struct types (no closed one compared with an open one)."
  },
  {
   "property": "C26",
   "status": "partial",
   "theorems": [
    "C26_assignable_of_type_is_instance_partial",
    "C26_assignable_of_type_without_hit_partial",
    "C26_empty_array_refuted",
    "C26_empty_map_refuted",
    "C26_array_of_floats_refuted",
    "C26_sensitive_refuted",
    "C26_array_of_all_of_refuted"
   ],
   "note": "False for empty containers, arrays of floats, sensitive values and elements of AllOf types; proved without those."
  },
  {
   "property": "C27",
   "status": "proved",
   "theorems": [
    "C27_instance_is_has_type",
    "C27_ternary_constructors",
    "C27_not_constructor",
    "C27_enumerations"
   ],
   "note": "Instance of every modelled type is characterised by the independent relation has_type; the types that the constructors return accept the boolean combinations"
  },
  {
   "property": "C28",
   "status": "partial",
   "theorems": [
    "C28_generic_idempotent",
    "C28_generic_of_value_widens",
    "C28_generic_of_value",
    "C28_generic_widens_partial",
    "C28_open_struct_refuted",
    "C28_tuple_of_not_refuted",
    "C28_empty_all_of_refuted"
   ],
   "note": "Idempotence proved for all types, widening for the types of all values and for types without open structs on which Assignable is sound."
  },
  {
   "property": "C29",
   "status": "partial",
   "theorems": [
    "C29_interval_partial",
    "C29_panics",
    "C29_full_range_refuted",
    "C29_assignable_contained",
    "C29_contained_assignable_partial",
    "C29_contained_assignable_refuted"
   ],
   "note": "full for Assignable implies containment; false for IntegerType(MinInt64,MaxInt64,false) and for a type of one integer from a range with one element"
  },
  {
   "property": "C30",
   "status": "partial",
   "theorems": [
    "C30_sized_string",
    "C30_sized_binary",
    "C30_assignable_partial",
    "C30_negative_bound_refuted",
    "C24_sized_string_dgo_refuted",
    "C24_sized_string_ci_refuted"
   ],
   "note": "acceptance full; Assignable sound except from dgo and case independent strings where it is refuted"
  },
  {
   "property": "C31",
   "status": "proved",
   "theorems": [
    "C27_instance_is_has_type",
    "C31_tuple_constructor",
    "C31_variadic_tuple_constructor",
    "C31_tuple_of_nil_refuted"
   ],
   "note": "the tuple clause of has_type is the positional typing; the constructors preserve it when they do not panic"
  },
  {
   "property": "C32",
   "status": "proved",
   "theorems": [
    "C27_instance_is_has_type",
    "C32_struct_constructor"
   ],
   "note": "the struct clause of has_type is the keyed typing; the constructor preserves it"
  },
  {
   "property": "C33",
   "status": "partial",
   "theorems": [
    "C33_verbose_same_verdict",
    "C33_errors_are_the_mistakes",
    "C33_validate_agrees_closed_partial",
    "C33_validate_agrees_exact_map_partial",
    "C33_open_struct_refuted",
    "C33_exact_sensitive_refuted",
    "C33_nil_key_refuted"
   ],
   "note": "Proved for closed struct types and exact map types without sensitive values and nil keys; false for open structs. ValidateVerbose has the verdict of Validate for all types. Its report tells the same errors in the same order."
  },
  {
   "property": "C34",
   "status": "partial",
   "theorems": [
    "C34_new_instance_partial",
    "C34_new_has_type_partial",
    "C34_new_keeps_instances",
    "C34_sensitive_refuted",
    "C34_duplicate_keys_refuted"
   ],
   "note": "New for all types but meta types, parsing and formatting functions as parameters; false for sensitive types, whose New does not look at the wrapped type (refuted)."
  },
  {
   "property": "C35",
   "status": "partial",
   "theorems": [
    "C35_reader_partial",
    "C35_next_on_bytes",
    "C35_replacement_character_refuted",
    "C35_column_refuted"
   ],
   "note": "Whole reader modelled; the replacement character makes Next panic and columns after the first line are off by one (refuted), otherwise proved."
  },
  {
   "property": "C36",
   "status": "partial",
   "theorems": [
    "C36_quoted_literal_partial",
    "C36_quoted_text_partial",
    "C36_raw_literal",
    "C36_pattern_literal_partial",
    "C36_not_printable_refuted",
    "C36_replacement_refuted",
    "C36_pattern_refuted",
    "C36_pattern_spelled",
    "C36_spelling_unambiguous"
   ],
   "note": "Strings of printable characters, tabs and line breaks. Characters that strconv.Quote escapes otherwise and patterns with backslashes are not read back. All patterns are spelled without ambiguity."
  },
  {
   "property": "C37",
   "status": "partial",
   "theorems": [
    "C37_type_round_trip_partial",
    "C37_type_read_partial",
    "C37_binary_refuted",
    "C37_time_and_regexp_refuted",
    "C37_empty_tuple_refuted",
    "C37_range_in_tuple_refuted",
    "C37_operator_in_element_refuted",
    "C37_open_float_range_refuted",
    "C37_struct_key_refuted",
    "C37_sensitive_refuted",
    "C37_pattern_refuted",
    "C37_meta_refuted",
    "C37_wrong_syntax_accepted"
   ],
   "note": "For the types that satisfy readable (SyntaxSpec.v), for every environment; the excluded forms are refuted one by one. Aliases, function types, native types and error types are not modelled."
  },
  {
   "property": "C38",
   "status": "partial",
   "theorems": [
    "C38_value_collected_partial",
    "C38_graph_collected_partial",
    "C38_graph_decoded_partial",
    "C38_rich_decoded_partial",
    "C38_sensitive_refuted",
    "C38_shared_sensitive_refuted",
    "C38_reference_map_refuted",
    "C38_cyclic_value_refuted"
   ],
   "note": "Proved for all consumers and all levels of deduplication, for values that need no encoding; with deduplication the same (also cyclic) graph is rebuilt. Finite values with sensitive values, binaries, times and maps with any keys are decoded, if no encoded object is shared or there is no deduplication. False without decoding for sensitive values, for shared encoded objects and for maps that look like references. Types are not modelled."
  },
  {
   "property": "C39",
   "status": "partial",
   "theorems": [
    "C39_well_formed_partial",
    "C39_marshal_well_formed",
    "C39_type_refuted"
   ],
   "note": "Proved for MarshalJSON and for all streamers, but for types that the alias map has no name for, where it is false."
  },
  {
   "property": "C40",
   "status": "partial",
   "theorems": [
    "C40_graph_round_trip_partial",
    "C40_rich_round_trip_partial",
    "C40_float_refuted",
    "C40_string_refuted",
    "C40_reserved_keys_refuted",
    "C40_shared_sensitive_refuted",
    "C40_pcore_refuted",
    "C40_nan_panics"
   ],
   "note": "Proved for shared and cyclic values that need no encoding, and for finite values with sensitive values, binaries, times and maps with any keys if no encoded object is shared; no reserved keys. False for floats without fraction, strings that are not UTF-8, reserved keys, sensitive values that occur twice and the pcore dialect."
  },
  {
   "property": "C41",
   "status": "proved",
   "theorems": [
    "C41_sensitive_not_printed",
    "C41_sensitive_not_appended",
    "C41_finite_values"
   ],
   "note": "Over graphs of nil, booleans, numbers, strings, binaries, times, regexps, arrays, maps and sensitive values, cyclic ones included. strconv.Quote, the formats of floats and times are arbitrary functions. Natives, errors, structs and types as values are not modelled."
  },
  {
   "property": "C42",
   "status": "proved",
   "theorems": [
    "C42_one_value",
    "C42_never_overwritten",
    "C42_returned_is_kept",
    "C42_conflict_panics",
    "C42_no_deadlock",
    "C42_existing_value"
   ],
   "note": "state machine with an explicit RWMutex, any number of goroutines and any finder results that are data values (no NaN)"
  },
  {
   "property": "C43",
   "status": "proved",
   "theorems": [
    "C43_one_namespace",
    "C42_never_overwritten",
    "C43_namespace_is_kept",
    "C43_existing_namespace"
   ],
   "note": "any number of goroutines and any results of the creator and of Equals"
  },
  {
   "property": "C44",
   "status": "proved",
   "theorems": [
    "C44_calls",
    "C44_parent_first",
    "C44_chain",
    "C44_missing_namespace",
    "C44_split_join",
    "C44_nil_entry_refuted"
   ],
   "note": "one goroutine; a finder and a creator are functions of the name. A nil entry of a loader without a finder counts as a value (C44_nil_entry_refuted)"
  },
  {
   "property": "C45",
   "status": "proved",
   "theorems": [
    "C45_at_most_one",
    "C45_one_succeeds",
    "C45_no_other",
    "C45_found_after"
   ],
   "note": "executions in which the name is not removed; sync.Map operations are atomic"
  },
  {
   "property": "C46",
   "status": "proved",
   "theorems": [
    "C46_latest",
    "C46_added_present",
    "C46_kept",
    "C46_no_deadlock",
    "C46_panic_harmless",
    "C46_stale_name_refuted",
    "C46_stale_reference_refuted",
    "C46_names"
   ],
   "note": "ResetDefaultAliases, which is for tests, does not take the lock and is left out. The inverse map and the resolution of references use stale information (the two refuted claims)"
  },
  {
   "property": "C47",
   "status": "partial",
   "theorems": [
    "C47_to_int_partial",
    "C47_to_int_total",
    "C47_to_int_wraps",
    "C47_uint64_refuted"
   ],
   "note": "False for unsigned values from 2^63 to 2^64-2, which become negative (refuted); proved for all others."
  },
  {
   "property": "C48",
   "status": "partial",
   "theorems": [
    "C48_round_trip_partial",
    "C48_strict_text",
    "C48_url_refuted"
   ],
   "note": "%B and %b proved, for all byte strings; %u does not decode the text form (refuted). The base64 algorithm of the Go library is modelled."
  },
  {
   "property": "C49",
   "status": "proved",
   "theorems": [
    "C49_table_size",
    "C49_table_size_capped",
    "C49_bucket_in_table"
   ],
   "note": ""
  },
  {
   "property": "C50",
   "status": "partial",
   "theorems": [
    "C50_string_strips_partial",
    "C50_stripped_unique",
    "C50_append_indented",
    "C50_invalid_bytes_refuted",
    "C50_string_twice_refuted"
   ],
   "note": "Proved for valid UTF-8; invalid bytes are replaced and a second String() is empty (refuted)."
  },
  {
   "property": "C51",
   "status": "partial",
   "theorems": [
    "C51_results_partial",
    "C51_substitutable_partial",
    "C51_mutual_partial",
    "C51_arguments_reversed_partial",
    "C51_nested_mutual_partial",
    "C51_nested_results_partial",
    "C51_nested_callbacks_partial",
    "C51_functions_accepted",
    "C51_arguments_refuted",
    "C51_variadic_refuted"
   ],
   "note": "False as stated: argument types are compared in the wrong direction (C51_arguments_refuted) and the element types of variadic functions may not be compared at all (C51_variadic_refuted). Results are checked properly, for types on which Assignable is sound; with equal argument types, or assignability both ways, functions are substitutable. The same is proved for functions of functions, where arguments of arguments are compared properly. To which types of data a function type is assignable is exactly characterised (C51_functions_accepted). Function types within arrays, maps and alternatives are not modelled."
  },
  {
   "property": "C52",
   "status": "proved",
   "theorems": [
    "C52_array_iteration",
    "C52_index_of",
    "C52_map_iteration"
   ],
   "note": ""
  },
  {
   "property": "C53",
   "status": "partial",
   "theorems": [
    "C53_equal_types_same_instances_partial",
    "C53_equal_types_same_instances_refuted"
   ],
   "note": "proved for types without exact types of sensitive values; false with them"
  },
  {
   "property": "C54",
   "status": "proved",
   "theorems": [
    "C54_array_type",
    "C54_map_type"
   ],
   "note": ""
  },
  {
   "property": "C55",
   "status": "partial",
   "theorems": [
    "C55_float_interval_partial",
    "C55_panics",
    "C55_full_range_refuted"
   ],
   "note": "false for the range of all finite floats, which becomes the type of all floats"
  },
  {
   "property": "C56",
   "status": "partial",
   "theorems": [
    "C56_reflect_to_partial",
    "C56_round_trip",
    "C56_overflow_refuted"
   ],
   "note": "Proved when the variable can hold the number; otherwise it is silently truncated (refuted)."
  },
  {
   "property": "C57",
   "status": "partial",
   "theorems": [
    "C57_reflected_partial",
    "C57_unique",
    "C57_reflected_refuted"
   ],
   "note": "not determined when two types share an implementation type, as those of loader.go do"
  },
  {
   "property": "C58",
   "status": "partial",
   "theorems": [
    "C58_type_equality_is_equivalence_partial",
    "C58_type_equality_reflexive",
    "C58_symmetric_refuted",
    "C58_transitive_refuted"
   ],
   "note": "Proved without exact types of sensitive values and without tuples that equal the type of a value."
  },
  {
   "property": "C59",
   "status": "proved",
   "theorems": [
    "C59_assignable_returns",
    "C27_instance_is_has_type"
   ],
   "note": ""
  },
  {
   "property": "C60",
   "status": "partial",
   "theorems": [
    "C60_string_terminates",
    "C60_string_of_finite_values",
    "C60_plain_indenter_refuted"
   ],
   "note": "String (util.ToStringERP) returns on all graphs. ToString and ToIndentedString, which use the indenter without protection, do not return on a := {a}."
  },
  {
   "property": "C61",
   "status": "partial",
   "theorems": [
    "C61_lexer_ends",
    "C61_lexer_advances",
    "C61_control_character_refuted"
   ],
   "note": "Ends and advances on all byte strings. The control characters 1 to 7 are taken for integers, floats, strings and so on with an empty text."
  },
  {
   "property": "C62",
   "status": "partial",
   "theorems": [
    "C62_integer_literal",
    "C62_integer_value",
    "C62_bad_literal_refuted"
   ],
   "note": "Every int64 is read back. Texts that are no int64 are not rejected."
  },
  {
   "property": "C63",
   "status": "proved",
   "theorems": [
    "C63_parser_ends"
   ],
   "note": "For every byte string and environment. Texts with aliases, function types or named types end in the outcome PSkip."
  },
  {
   "property": "C64",
   "status": "partial",
   "theorems": [
    "C64_printed_value_read_partial",
    "C64_printed_alike_partial",
    "C64_nil_refuted",
    "C64_rich_values_refuted",
    "C64_empty_array_refuted",
    "C64_boolean_key_refuted",
    "C64_string_refuted"
   ],
   "note": "For values made of booleans, integers, floats, texts, arrays that are not empty and maps without boolean keys. False for nil, binaries, times, regular expressions, sensitive values, the empty array and boolean keys (refuted). With any indentation made of blanks."
  },
  {
   "property": "C65",
   "status": "partial",
   "theorems": [
    "C65_go_round_trip_partial",
    "C65_uint64_refuted",
    "C65_pointers_refuted",
    "C65_nil_slice_refuted",
    "C65_nil_value_refuted",
    "C65_any_refuted",
    "C65_time_refuted",
    "C65_nan_refuted",
    "C65_keys_refuted",
    "C65_go_equality"
   ],
   "note": "proved for all types without interface{}, pointers to pointers and pointers to times, and values without MaxUint64, nil behind pointers and NaN keys; each exclusion is refuted; structs and native values are not modelled"
  },
  {
   "property": "C66",
   "status": "partial",
   "theorems": [
    "C66_dgo_round_trip_partial",
    "C66_any_round_trip_partial",
    "C66_equal",
    "C66_time_refuted",
    "C66_nil_refuted",
    "C66_bytes_refuted",
    "C66_array_key_refuted",
    "C66_float32_sign"
   ],
   "note": "proved for values without times and with simple map keys, into variables that are wide enough and into interface{}; refuted for the others"
  },
  {
   "property": "C67",
   "status": "partial",
   "theorems": [
    "C67_frozen_binary",
    "C67_frozen_copy_partial",
    "C67_array_of_slice_partial",
    "C67_string_partial",
    "C67_time_partial",
    "C67_freeze_refuted",
    "C67_go_slice_refuted",
    "C67_string_refuted",
    "C67_time_refuted",
    "C67_struct_refuted"
   ],
   "note": "proved for frozen binaries, frozen copies of arrays, arrays made of slices, and strings and times without ReflectTo into a pointer; refuted for arrays frozen by Freeze and for pointers to strings and times"
  },
  {
   "property": "C68",
   "status": "partial",
   "theorems": [
    "C68_lookup_partial",
    "C68_put_partial",
    "C68_put_value_partial",
    "C68_put_works_partial",
    "C68_frozen",
    "C68_frozen_copy_partial",
    "C68_thawed_copy_partial",
    "C68_refill_partial",
    "C68_with_partial",
    "C68_without_partial",
    "C68_merge_partial",
    "C68_equals_partial",
    "C68_equals_structs_partial",
    "C68_hash_partial",
    "C68_all_partial",
    "C68_all_keys",
    "C68_all_values_partial",
    "C68_any_partial",
    "C68_any_key",
    "C68_any_value_partial",
    "C68_each_partial",
    "C68_values_partial",
    "C68_find_partial",
    "C68_map_partial",
    "C68_promoted_refuted",
    "C68_equals_refuted",
    "C68_put_refuted",
    "C68_not_frozen_refuted",
    "C68_put_value_refuted",
    "C68_put_all_refuted",
    "C68_freeze_refuted",
    "C68_go_struct_refuted",
    "C68_thawed_copy_refuted",
    "C68_string_keys"
   ],
   "note": "for structs without embedded structs; conversions as in C65 and C66; the refutations are for embedded structs, structs passed by value, Freeze, PutAll and narrow field types"
  },
  {
   "property": "C69",
   "status": "proved",
   "theorems": [
    "C69_lexer_ends",
    "C69_parser_ends",
    "C69_fuel_is_no_bound"
   ],
   "note": "The lexer and the parser of the model, with aliases, named types, Callable and calls ending in an own outcome."
  },
  {
   "property": "C70",
   "status": "partial",
   "theorems": [
    "C70_tokens",
    "C70_literal_is_read_partial",
    "C70_entry_is_read_partial",
    "C70_same_key_refuted",
    "C70_number_refuted",
    "C70_zero_byte_refuted",
    "C70_carriage_return_refuted",
    "C70_control_character_refuted",
    "C70_nested_entry_refuted"
   ],
   "note": "Proved for integers in range, keys that differ and blanks, tabs, newlines and comments between tokens; refuted for same keys, other integers, zero bytes, carriage returns and control characters."
  },
  {
   "property": "C71",
   "status": "partial",
   "theorems": [
    "C71_type_meaning_partial",
    "C71_tuple_size_refuted",
    "C71_default_refuted",
    "C71_quoted_default_refuted",
    "C71_undef_refuted",
    "C71_number_refuted",
    "C71_float_refuted",
    "C71_not_read_refuted"
   ],
   "note": "Every type expression that meets the stated conditions, in every layout, is read as a type that accepts exactly the values that belong to it. The conditions leave out bounds in the wrong order, tuple sizes, and tuples and structs of undef; the refutations show that these fail. Type, Callable, aliases and named types are not covered."
  },
  {
   "property": "C72",
   "status": "partial",
   "theorems": [
    "C72_types_have_a_meaning",
    "C72_one_meaning_on_finite_values",
    "C72_members_are_accepted_partial",
    "C72_exact_on_finite_values_partial",
    "C72_exact_for_plain_types_partial",
    "C72_returns_on_finite_values_partial",
    "C72_returns_partial",
    "C72_bound_does_not_matter",
    "C72_data_refuted",
    "C72_not_data_refuted",
    "C72_node_refuted",
    "C72_union_with_itself_refuted",
    "C72_negation_refuted"
   ],
   "note": "Members are never rejected by types without negation; exact when alternatives have no types in them or when no type refers to itself; returns when no union contains itself, and for cyclic values when no type refers to itself through a negation. False in general: the built-in type data accepts arrays with sensitive values."
  },
  {
   "property": "C73",
   "status": "partial",
   "theorems": [
    "C73_returns_partial",
    "C73_references_are_replaced_partial",
    "C73_results",
    "C73_meaning_is_kept",
    "C73_names_have_a_meaning",
    "C73_others_are_untouched_partial",
    "C73_instance_is_exact_partial",
    "C73_members_are_accepted_partial",
    "C73_sensitive_refuted",
    "C73_chain_refuted",
    "C73_array_refuted",
    "C73_error_refuted",
    "C73_readers_refuted"
   ],
   "note": "Missing: references in sensitive types, names that stand for references, values that contain themselves, and that types in use by others are not written to (all refuted); deferred calls."
  },
  {
   "property": "C74",
   "status": "partial",
   "theorems": [
    "C74_returns_partial",
    "C74_justified_is_not_rejected",
    "C74_exact_partial",
    "C74_sound_partial",
    "C74_rules_are_sound_partial",
    "C74_arrays_refuted",
    "C74_alternatives_refuted",
    "C74_cycles_refuted"
   ],
   "note": "Graphs of types without allOf, oneOf and not; not both sized arrays and tuples, not both sized maps and structs. It returns if no type refers to itself through array elements, never rejects what the rules justify, and is exact and sound if alternatives are flat and one of the two types does not refer to itself. Without these conditions it is false: it may not return, and may accept too much."
  },
  {
   "property": "C75",
   "status": "partial",
   "theorems": [
    "C75_value_has_type_of_go_type_partial",
    "C75_instance_stored_partial",
    "C75_there_and_back_accepts_partial",
    "C75_go_type_exists_partial",
    "C75_bytes_refuted",
    "C75_nil_slice_refuted",
    "C75_nil_behind_pointers_refuted",
    "C75_dgo_value_refuted",
    "C75_uint64_refuted",
    "C75_float32_refuted",
    "C75_open_struct_refuted",
    "C75_no_types_refuted",
    "C75_array_keys_refuted",
    "C75_time_refuted",
    "C75_binary_back_refuted",
    "C75_sensitive_back_refuted"
   ],
   "note": "The first part is characterised exactly (belongs). The others hold for storable types (closed structs, simple keys, no times, no empty alternatives) and portable values; the refutations show what the excluded cases do."
  },
  {
   "property": "C76",
   "status": "partial",
   "theorems": [
    "C76_instance_is_membership_partial",
    "C76_assignable_sound_partial",
    "C76_assignable_checked_sound_partial",
    "C76_assignable_exact_sound_partial",
    "C76_assignable_reflexive_partial",
    "C76_assignable_transitive_partial",
    "C76_equals_equivalence",
    "C76_new_checked_instance",
    "C76_new_unchecked_instance_partial",
    "C76_generic_parameterized_partial",
    "C76_generic_exact_partial",
    "C76_assignable_interface_refuted",
    "C76_assignable_transitive_refuted",
    "C76_no_go_type_panics_refuted",
    "C76_assignable_reflexive_refuted",
    "C76_new_instance_refuted",
    "C76_new_exact_refuted",
    "C76_new_exact_parameterized_refuted",
    "C76_equal_types_same_instances_refuted",
    "C76_assignable_empty_all_of_refuted",
    "C76_parameters_ignored_refuted"
   ],
   "note": "Equals, HashCode and New with a checker hold in full. Instance needs objects that tell the truth about their type; Assignable is sound if the source has no interface and no checker, or the target has a sound checker. The full claims are refuted: interfaces in the source, definitions without a Go type, New without a checker or of exact types, allOf without operands."
  },
  {
   "property": "C77",
   "status": "partial",
   "theorems": [
    "C77_named_round_trip_partial",
    "C77_json_well_formed_partial",
    "C77_json_round_trip_partial",
    "C77_empty_argument_refuted",
    "C77_value_key_refuted",
    "C77_type_key_refuted",
    "C77_reserved_name_refuted",
    "C77_json_keys_refuted"
   ],
   "note": "For trees of values, all dialects, consumers and levels. Constructors are assumed to invert extractors. Not so for empty arguments, reserved keys or names; keys that are no strings make the JSON text malformed. Missing: one object in two places, objects that contain themselves, alias maps."
  },
  {
   "property": "C78",
   "status": "partial",
   "theorems": [
    "C78_arguments_passed_partial",
    "C78_wrong_count_panics",
    "C78_results_partial",
    "C78_results_told_partial",
    "C78_nil_results",
    "C78_checked_refuted",
    "C78_too_strict_refuted",
    "C78_pointers_refuted",
    "C78_array_keys_refuted",
    "C78_float32_keys_refuted",
    "C78_nil_result_refuted",
    "C78_equal_functions_refuted",
    "C78_type_equals_refuted",
    "C78_functions_equality"
   ],
   "note": "Arguments that In() accepts reach the parameters, for parameters without pointers to pointers or to interface{}, and simple keys. Results say what the function returned, and are an instance of Out() exactly when they are in the list of C75. Not so in general: arguments are not checked, nil results, closures of one literal are equal, Equals of function types is not symmetric. Missing: struct types, channels and other Go types that Reflect.v leaves out."
  },
  {
   "property": "C79",
   "status": "partial",
   "theorems": [
    "C79_wrapped_equal",
    "C79_equivalence_partial",
    "C79_hash_partial",
    "C79_instances",
    "C79_own_type",
    "C79_assignable",
    "C79_types_equal",
    "C79_types_hash",
    "C79_instance_by_type_partial",
    "C79_causes_partial",
    "C79_kept_partial",
    "C79_symmetric_refuted",
    "C79_hash_refuted",
    "C79_transitive_refuted",
    "C79_instance_by_type_refuted",
    "C79_causes_refuted",
    "C79_kept_refuted"
   ],
   "note": "Errors made of Go errors and error types in full. Equality and hash codes only among errors made of Go errors and among errors that dgo makes, false between them; errors.Is does not find the Go error itself; false when a *error was assigned."
  },
  {
   "property": "C80",
   "status": "partial",
   "theorems": [
    "C80_equals",
    "C80_equivalence",
    "C80_reflexive_partial",
    "C80_hash",
    "C80_hash_ends_partial",
    "C80_no_panic_partial",
    "C80_hash_again",
    "C80_equals_again_partial",
    "C80_reflexive_refuted",
    "C80_hash_ends_refuted",
    "C80_no_panic_refuted",
    "C80_equals_again_refuted"
   ],
   "note": "Equals decides sameness of graphs and agrees with HashCode, in full. False: reflexivity with NaN and functions, HashCode of cycles and of slices of natives, equality after HashCode of strings."
  },
  {
   "property": "C81",
   "status": "partial",
   "theorems": [
    "C81_equality",
    "C81_equal_types",
    "C81_instance_by_type",
    "C81_containment_partial",
    "C81_reflect_to_partial",
    "C81_default",
    "C81_containment_refuted",
    "C81_default_refuted",
    "C81_reflect_to_refuted",
    "C81_reflect_pointer"
   ],
   "note": "Containment for interfaces only, false for defined types; the default type has no hash code; pointers cannot be had back."
  },
  {
   "property": "C82",
   "status": "partial",
   "theorems": [
    "C82_equality",
    "C82_equal_load_partial",
    "C82_get_partial",
    "C82_init_partial",
    "C82_absolute_name_partial",
    "C82_distinct_names_partial",
    "C82_child_names",
    "C82_immutable_partial",
    "C82_equal_load_refuted",
    "C82_get_refuted",
    "C82_init_refuted",
    "C82_absolute_name_refuted",
    "C82_distinct_names_refuted",
    "C82_immutable_refuted",
    "C82_get_again",
    "C82_new"
   ],
   "note": "Equals and HashCode are proved in full. Equal loaders load the same without finders and creators (refuted with a finder); the init argument loses the finder and the parent namespace (refuted); absolute names lead to the loader if the root has no name (refuted otherwise)."
  },
  {
   "property": "C83",
   "status": "partial",
   "theorems": [
    "C83_assert_size",
    "C83_arg",
    "C83_message",
    "C83_independent_partial",
    "C83_equal_partial",
    "C83_equal_refuted",
    "C83_independent_refuted"
   ],
   "note": "Arguments of frozen arrays are independent; those of mutable arrays share storage (refuted). Arguments are not Equal to themselves (refuted)."
  },
  {
   "property": "C84",
   "status": "partial",
   "theorems": [
    "C84_sizes_partial",
    "C84_unbounded_partial",
    "C84_bounded_partial",
    "C84_int_bounds",
    "C84_float_bounds_partial",
    "C84_elements",
    "C84_element_type_partial",
    "C84_element_type_below",
    "C84_map_types_partial",
    "C84_exact",
    "C84_exact_back_partial",
    "C84_exact_back_is_partial",
    "C84_labels",
    "C84_ci_size_refuted",
    "C84_variadic_unbounded_refuted",
    "C84_empty_struct_refuted",
    "C84_float_refuted",
    "C84_element_type_refuted",
    "C84_map_types_refuted",
    "C84_exact_refuted",
    "C84_labels_refuted",
    "C84_labels_known"
   ],
   "note": "Everything but: sizes of case independent strings, Unbounded of variadic tuples and closed struct types, the type of all floats, element, key and value types of types with several members, nil and sensitive values; all refuted."
  },
  {
   "property": "C85",
   "status": "partial",
   "theorems": [
    "C85_func_round_trip_partial",
    "C85_func_read_partial",
    "C85_func_text_injective_partial",
    "C85_func_parser_ends",
    "C85_operands_text",
    "C85_func_operand_refuted",
    "C85_func_parenthesis_refuted",
    "C85_func_range_refuted",
    "C85_func_nil_refuted"
   ],
   "note": "Proved for function types whose arguments and results are readable (C37) and no function types. False in general: a function type as an operand swallows the operators after its result, a result that starts with a parenthesis is taken for a list of results, an argument that starts with dots makes the function variadic, and lists of exact types with nil panic."
  },
  {
   "property": "C86",
   "status": "proved",
   "theorems": [
    "C86_new_makes",
    "C86_makes_one"
   ],
   "note": "Equivalence with an inductive specification. The conversion of types other than sensitive ones is followed by the check that the value is an instance; TMeta (New of the type type) never makes a value in the model, as in C34."
  },
  {
   "property": "C87",
   "status": "partial",
   "theorems": [
    "C87_document_read_partial",
    "C87_brackets_match",
    "C87_trailing_text_refuted",
    "C87_words_refuted"
   ],
   "note": "Documents that do not use the type key or begin an object with the reference key. What follows a document is ignored (refuted)."
  },
  {
   "property": "C88",
   "status": "proved",
   "theorems": [
    "C88_tokens_of_text",
    "C88_unambiguous",
    "C88_integers_have_digits_refuted",
    "C88_hex_digits_refuted"
   ],
   "note": "all texts of characters other than U+FFFD. The _refuted theorems are findings beside the property: integers without digits, and integers that strconv does not accept."
  },
  {
   "property": "C89",
   "status": "partial",
   "theorems": [
    "C89_declared_types_partial",
    "C89_first_name_taken",
    "C89_later_name_taken",
    "C89_chain_refuted",
    "C89_sensitive_refuted",
    "C89_negated_name_refuted"
   ],
   "note": "Names for other names, for negated names and names within sensitive are refuted. Expressions may have integers, ranges, and strings, arrays and maps with sizes. Missing: floats, bounds in the wrong order, sensitive, types of types, patterns and functions in the same text."
  },
  {
   "property": "C90",
   "status": "partial",
   "theorems": [
    "C90_instance_of_declared_types_partial",
    "C90_instance_without_loops_partial",
    "C90_alternatives_refuted",
    "C90_alternatives_outside_refuted",
    "C90_all_but_the_last_refuted"
   ],
   "note": "From the tokens of a text to the answer of Instance: for names that refer to themselves with flat alternatives, and for names that do not with any alternatives and also for cyclic values. False for alternatives that are containers or names next to a name that refers to itself (C72): node={v:int,n:string|node} accepts {v:1,n:{}}; and for the range of all integers but the last. Missing: tuples, structs and arrays of only values, what C89 does not read."
  },
  {
   "property": "C91",
   "status": "partial",
   "theorems": [
    "C91_no_races_partial",
    "C91_hash_code_refuted",
    "C91_equals_refuted",
    "C91_string_refuted",
    "C91_namespace_refuted",
    "C91_add_aliases_refuted",
    "C91_default_aliases_refuted",
    "C91_new_string_refuted"
   ],
   "note": "No races between any goroutines that call Get and Namespace of loaders, methods of mapLoaders, DefaultAliases and HashCode, where strings without a hash code are not shared. False for HashCode, Equals and String of mutable loaders, for Namespace where the namespaces are mutable loaders, for AddDefaultAliases, and for new strings used by two goroutines. Not modelled: the comparison of values of entries, named types."
  },
  {
   "property": "C92",
   "status": "proved",
   "theorems": [
    "C92_no_deadlock",
    "C92_locks_given_back"
   ],
   "note": "All calls of loaders and aliases, nested in finders, creators and adders. Fairness of the scheduler is not claimed: some goroutine can go on, not each one does."
  },
  {
   "property": "C93",
   "status": "partial",
   "theorems": [
    "C93_other_maps_partial",
    "C93_result_partial",
    "C93_with_refuted",
    "C93_merge_refuted",
    "C93_without_refuted"
   ],
   "note": "Operations on other maps never change a map, for all histories without ToMap on repeated keys and With of nil. What is returned is a new map if there is something to do. False otherwise: With, Without and Merge return the receiver or the argument itself, also if it is mutable."
  },
  {
   "property": "C94",
   "status": "partial",
   "theorems": [
    "C94_ordered_partial",
    "C94_accurate_partial",
    "C94_distinct_partial",
    "C94_whole_seconds_partial",
    "C94_whole_seconds_refuted",
    "C94_milliseconds_refuted",
    "C94_zone_refuted",
    "C94_far_refuted"
   ],
   "note": "Order within a zone for 292276 years around 1970, accuracy of 3 microseconds and order between zones for the years 1679 to 2261, the way back for whole seconds from 1823 to 2116. Refuted: whole seconds after 2116 (4656493119) get a fraction, times with milliseconds come back some nanoseconds earlier, the same instant has different numbers in different zones at the end of 2261, and numbers wrap around after 292277 years. These proofs use the axioms of the reals of the standard library."
  },
  {
   "property": "C95",
   "status": "partial",
   "theorems": [
    "C95_translates_partial",
    "C95_distinct_partial",
    "C95_identifier_partial",
    "C95_control_character_refuted",
    "C95_qualified_refuted",
    "C95_builtin_refuted"
   ],
   "note": "Translation without panic and without collision for all texts without the character 6, which the lexer takes for an empty name (refuted for it). Names without :: are read as one identifier by the lexer of dgo; names with :: are not readable and names like Int are those of types of dgo (refuted)."
  },
  {
   "property": "C96",
   "status": "partial",
   "theorems": [
    "C96_update_while_iterating_partial",
    "C96_insert_while_iterating_partial",
    "C96_room_while_iterating_partial",
    "C96_removed_is_visited_refuted",
    "C96_stale_value_refuted",
    "C96_capacity_refuted",
    "C96_last_removed_refuted",
    "C96_endless_refuted"
   ],
   "note": "Proved for callbacks that put values for keys that are there and remove the current entry; with new keys, exactly as long as the table does not grow; with callbacks that put new keys in any case all entries that the map had are visited, in order, without a panic. False otherwise: removed entries may be visited, values may be stale, new entries are visited or not depending on the capacity and on the order of the changes, and the iteration may not end."
  },
  {
   "property": "C97",
   "status": "partial",
   "theorems": [
    "C97_each_ends",
    "C97_each_appends_partial",
    "C97_each_within_capacity_partial",
    "C97_each_exact",
    "C97_removing_refuted",
    "C97_capacity_refuted",
    "C97_stale_refuted"
   ],
   "note": "The iteration always ends. C97_each_exact says for all callbacks what is visited and what becomes of the arrays. Appending callbacks visit the elements that were there at the beginning, for every growth policy. Partial because the property is false: removals skip elements and hand out nil, insertions repeat elements depending on the capacity, replaced elements are stale after growth."
  },
  {
   "property": "C98",
   "status": "partial",
   "theorems": [
    "C98_array_partial",
    "C98_map",
    "C98_string",
    "C98_string_exact",
    "C98_binary",
    "C98_sensitive",
    "C98_refused",
    "C98_array_of_nil_refuted"
   ],
   "note": "All functions and all lists of arguments. Partial because an array type of one nil can not be made (refuted)."
  },
  {
   "property": "C99",
   "status": "partial",
   "theorems": [
    "C99_accepts_partial",
    "C99_illegal",
    "C99_broken",
    "C99_accepts_refuted"
   ],
   "note": "Missing: legal descriptions that are exact and contain the nil type panic (C99_accepts_refuted); C99_broken shows that no others do. Parse is an oracle, and the Instance check of the description is written out by hand."
  }
 ]
}