{
 "claims": [
  {
   "property": "C01",
   "status": "proved",
   "theorems": [
    "C01_sizer_add",
    "C01_first_add"
   ],
   "note": "Any Sizer state, any type with a layout version, both layouts, any target."
  },
  {
   "property": "C02",
   "status": "proved",
   "theorems": [
    "C02_sizer_writer_agree",
    "C02_fresh"
   ],
   "note": "Any list of values and any prior state with equal len(); panics coincide too."
  },
  {
   "property": "C03",
   "status": "proved",
   "theorems": [
    "C03_history_image",
    "C03_returned_offsets"
   ],
   "note": "For histories mixing write, write_iter and write_std; the offset theorem is for sequences of write calls."
  },
  {
   "property": "C04",
   "status": "proved",
   "theorems": [
    "C04_append_only"
   ],
   "note": "Includes failing and panicking operations and arbitrary lawful sinks."
  },
  {
   "property": "C05",
   "status": "proved",
   "theorems": [
    "C05_len_counts_bytes"
   ],
   "note": "With overflow checks off, modulo usize::MAX + 1 (see C13)."
  },
  {
   "property": "C06",
   "status": "proved",
   "theorems": [
    "C06_slice_iter_loop"
   ],
   "note": "For every sink, also failing ones; nested composites allowed as items."
  },
  {
   "property": "C07",
   "status": "proved",
   "theorems": [
    "C07_sizes_agree"
   ],
   "note": ""
  },
  {
   "property": "C08",
   "status": "proved",
   "theorems": [
    "C08_size_of_dynamic_values",
    "C08_size_panics_iff_overflow"
   ],
   "note": ""
  },
  {
   "property": "C09",
   "status": "proved",
   "theorems": [
    "C09_failure_leaves_prefix",
    "C09_slices_and_composites"
   ],
   "note": "Lawful sinks: Err may have delivered any prefix of the argument of write_all."
  },
  {
   "property": "C10",
   "status": "proved",
   "theorems": [
    "C10_len_after_error",
    "C10_len_equals_delivered_refuted",
    "C10_write_after_error_misplaced_refuted"
   ],
   "note": "The documented reading of len() is refuted by the two _refuted theorems; C10_len_after_error is the exact behaviour."
  },
  {
   "property": "C11",
   "status": "proved",
   "theorems": [
    "C11_fixed_buffer"
   ],
   "note": ""
  },
  {
   "property": "C12",
   "status": "proved",
   "theorems": [
    "C12_sizer_overflow",
    "C12_writer_overflow"
   ],
   "note": ""
  },
  {
   "property": "C13",
   "status": "proved",
   "theorems": [
    "C13_wraparound"
   ],
   "note": ""
  },
  {
   "property": "C14",
   "status": "proved",
   "theorems": [
    "C14_no_implicit_padding"
   ],
   "note": ""
  },
  {
   "property": "C15",
   "status": "proved",
   "theorems": [
    "C15_std140_offsets"
   ],
   "note": ""
  },
  {
   "property": "C16",
   "status": "proved",
   "theorems": [
    "C16_std430_offsets"
   ],
   "note": ""
  },
  {
   "property": "C17",
   "status": "proved",
   "theorems": [
    "C17_size_and_alignment",
    "C17_glsl_size_and_alignment"
   ],
   "note": ""
  },
  {
   "property": "C18",
   "status": "proved",
   "theorems": [
    "C18_padding_terminates",
    "C18_padding_value"
   ],
   "note": ""
  },
  {
   "property": "C19",
   "status": "proved",
   "theorems": [
    "C19_padding_is_zero",
    "C19_raw_values_keep_padding_refuted"
   ],
   "note": "The refuted theorem shows that the restriction to host types is needed."
  },
  {
   "property": "C20",
   "status": "proved",
   "theorems": [
    "C20_round_trip",
    "C20_round_trip_bytes"
   ],
   "note": ""
  },
  {
   "property": "C21",
   "status": "proved",
   "theorems": [
    "C21_normalisation"
   ],
   "note": ""
  },
  {
   "property": "C22",
   "status": "proved",
   "theorems": [
    "C22_pod_bijection"
   ],
   "note": ""
  },
  {
   "property": "C23",
   "status": "proved",
   "theorems": [
    "C23_gpu_reads_host_value"
   ],
   "note": ""
  },
  {
   "property": "C24",
   "status": "proved",
   "theorems": [
    "C24_host_reads_gpu_value"
   ],
   "note": ""
  },
  {
   "property": "C25",
   "status": "proved",
   "theorems": [
    "C25_vector_values",
    "C25_matrix_values",
    "C25_builtin_types",
    "C25_math_types",
    "C25_no_other_math_types"
   ],
   "note": ""
  },
  {
   "property": "C26",
   "status": "proved",
   "theorems": [
    "C26_bool_conversions"
   ],
   "note": ""
  },
  {
   "property": "C27",
   "status": "proved",
   "theorems": [
    "C27_bool_equality",
    "C27_debug_text",
    "C27_bool_equality_is_boolean_refuted"
   ],
   "note": "The claim that Bool equality is boolean equality is refuted; the exact condition is C27_bool_equality."
  },
  {
   "property": "C28",
   "status": "proved",
   "theorems": [
    "C28_dynamic_uniform"
   ],
   "note": ""
  },
  {
   "property": "C29",
   "status": "proved",
   "theorems": [
    "C29_definition_denotes_struct",
    "C29_never_misread",
    "C29_rejected_inputs"
   ],
   "note": ""
  },
  {
   "property": "C30",
   "status": "proved",
   "theorems": [
    "C30_program_denotes_types",
    "C30_builtin_names",
    "C30_which_names_exist",
    "C30_types_without_name",
    "C30_generic_names_refuted"
   ],
   "note": "The documented 'All GLSL primitives implement Glsl' fails for bool only (C30_which_names_exist); generic structs are refuted."
  },
  {
   "property": "C31",
   "status": "proved",
   "theorems": [
    "C31_alignment_power_of_two",
    "C31_power_of_two_refuted"
   ],
   "note": "Documented power-of-two claim refuted for size-0 std430 structs only."
  },
  {
   "property": "C32",
   "status": "proved",
   "theorems": [
    "C32_std430_not_larger"
   ],
   "note": ""
  },
  {
   "property": "C33",
   "status": "proved",
   "theorems": [
    "C33_minty_types",
    "C33_cgmath_types"
   ],
   "note": ""
  },
  {
   "property": "C34",
   "status": "proved",
   "theorems": [
    "C34_named_struct_accepted_iff",
    "C34_macro_rejects_iff",
    "C34_any_struct_can_derive_refuted"
   ],
   "note": "Where-clauses and visibility are not modelled. Documented claim refuted in four ways."
  },
  {
   "property": "C35",
   "status": "proved",
   "theorems": [
    "C35_module_types",
    "C35_module_functions",
    "C35_user_names_refuted",
    "C35_names_distinct"
   ],
   "note": ""
  },
  {
   "property": "C36",
   "status": "proved",
   "theorems": [
    "C36_std140_slice_is_array",
    "C36_slice_offsets",
    "C36_slice_is_array_iff",
    "C36_std140_scalar_slice_refuted"
   ],
   "note": "Exact iff; the documented reading (slices are arrays) is refuted for std140 scalars."
  },
  {
   "property": "C37",
   "status": "proved",
   "theorems": [
    "C37_std430_slice_is_array"
   ],
   "note": ""
  },
  {
   "property": "C38",
   "status": "proved",
   "theorems": [
    "C38_block"
   ],
   "note": ""
  },
  {
   "property": "C39",
   "status": "proved",
   "theorems": [
    "C39_block_with_slices",
    "C39_after_slice_iff",
    "C39_value_after_vec3_slice_refuted"
   ],
   "note": "Exact iff; a scalar after a vec3 slice is the counterexample."
  },
  {
   "property": "C40",
   "status": "proved",
   "theorems": [
    "C40_position_independent"
   ],
   "note": ""
  },
  {
   "property": "C41",
   "status": "proved",
   "theorems": [
    "C41_debug_metrics",
    "C41_field_sizes_refuted",
    "C41_host_sizes_refuted",
    "C41_text_is_faithful",
    "C41_text_content"
   ],
   "note": "Field sizes are host sizes; refuted as layout sizes, and as host sizes for a struct called Field (shadowed inside debug_metrics). The text is proved injective."
  },
  {
   "property": "C42",
   "status": "proved",
   "theorems": [
    "C42_valid_names",
    "C42_always_valid_refuted",
    "C42_raw_identifier_refuted"
   ],
   "note": "Exact iff for ASCII names; raw identifiers and GLSL keywords are counterexamples."
  },
  {
   "property": "C43",
   "status": "proved",
   "theorems": [
    "C43_same_bytes"
   ],
   "note": ""
  },
  {
   "property": "C44",
   "status": "proved",
   "theorems": [
    "C44_max"
   ],
   "note": ""
  },
  {
   "property": "C45",
   "status": "proved",
   "theorems": [
    "C45_padding_cost",
    "C45_cost_is_moderate_refuted"
   ],
   "note": "Counts calls of padding functions in the call tree, without memoisation; some rustc versions memoise zero-argument const fn calls, others interpret every call."
  },
  {
   "property": "C46",
   "status": "proved",
   "theorems": [
    "C46_rust_alignment"
   ],
   "note": ""
  },
  {
   "property": "C47",
   "status": "proved",
   "theorems": [
    "C47_write_iter_finite",
    "C47_infinite_iter_fixed_buffer",
    "C47_non_fused_iterator_refuted"
   ],
   "note": "The documented return value is refuted for non-fused iterators only. Item implementations are arbitrary user code."
  },
  {
   "property": "C48",
   "status": "proved",
   "theorems": [
    "C48_append_only",
    "C48_image",
    "C48_sink_independent",
    "C48_default_size",
    "C48_failure_leaves_prefix",
    "C48_builtin_impls"
   ],
   "note": "Implementations that never return, or catch panics, are not modelled."
  },
  {
   "property": "C49",
   "status": "proved",
   "theorems": [
    "C49_fieldwise_writing"
   ],
   "note": "For derived structs; offsets, bytes and trailing zero padding."
  },
  {
   "property": "C50",
   "status": "proved",
   "theorems": [
    "C50_layout_portable",
    "C50_acceptance_portable",
    "C50_bytes_portable",
    "C50_endianness_matters_refuted"
   ],
   "note": "Endianness: the unrestricted claim is refuted."
  },
  {
   "property": "C51",
   "status": "proved",
   "theorems": [
    "C51_appending_fields"
   ],
   "note": ""
  },
  {
   "property": "C52",
   "status": "proved",
   "theorems": [
    "C52_names_are_irrelevant",
    "C52_offsets_by_position"
   ],
   "note": "The renamed type is assumed to be accepted (acceptance is C34/C35)."
  },
  {
   "property": "C53",
   "status": "proved",
   "theorems": [
    "C53_struct_layout_minimal",
    "C53_sizer_minimal"
   ],
   "note": ""
  },
  {
   "property": "C54",
   "status": "proved",
   "theorems": [
    "C54_copying_by_hand"
   ],
   "note": ""
  },
  {
   "property": "C55",
   "status": "proved",
   "theorems": [
    "C55_found_at_returned_offset"
   ],
   "note": ""
  },
  {
   "property": "C56",
   "status": "proved",
   "theorems": [
    "C56_dynamic_slice",
    "C56_std140_only"
   ],
   "note": ""
  },
  {
   "property": "C57",
   "status": "proved",
   "theorems": [
    "C57_zeroed_memory"
   ],
   "note": ""
  },
  {
   "property": "C58",
   "status": "proved",
   "theorems": [
    "C58_gpu_round_trip",
    "C58_memberwise_copy"
   ],
   "note": "Types embedding raw layout values or crevice::Bool are excluded: their host values are not determined by what GLSL sees (C19, C27)."
  },
  {
   "property": "C59",
   "status": "proved",
   "theorems": [
    "C59_shader_assignment"
   ],
   "note": ""
  },
  {
   "property": "C60",
   "status": "proved",
   "theorems": [
    "C60_partial_update"
   ],
   "note": ""
  },
  {
   "property": "C61",
   "status": "proved",
   "theorems": [
    "C61_sizer_of_fields",
    "C61_sizer_covers_struct_refuted"
   ],
   "note": "C61_sizer_covers_struct_refuted exhibits a struct whose Sizer length (12) is less than its size (16)."
  },
  {
   "property": "C62",
   "status": "proved",
   "theorems": [
    "C62_cast_slice_vs_writer",
    "C62_cast_slice_is_array",
    "C62_which_types",
    "C62_read_back"
   ],
   "note": "The casts themselves are bytemuck's, modelled in Cast.v from the Rust layout of slices."
  },
  {
   "property": "C63",
   "status": "proved",
   "theorems": [
    "C63_presized_buffer",
    "C63_sum_of_sizes",
    "C63_sum_suffices_refuted"
   ],
   "note": "C63_sum_suffices_refuted: f32 then vec3 need 28 bytes, their sizes sum to 16."
  },
  {
   "property": "C64",
   "status": "proved",
   "theorems": [
    "C64_bytes_detect_changes",
    "C64_slices"
   ],
   "note": ""
  },
  {
   "property": "C65",
   "status": "proved",
   "theorems": [
    "C65_update_in_place"
   ],
   "note": ""
  },
  {
   "property": "C66",
   "status": "proved",
   "theorems": [
    "C66_field_order",
    "C66_decreasing_alignment_refuted"
   ],
   "note": "C66_decreasing_alignment_refuted: the counterexample with 3-vectors."
  },
  {
   "property": "C67",
   "status": "proved",
   "theorems": [
    "C67_vector_equality",
    "C67_equivalence",
    "C67_equality_and_bytes",
    "C67_equality_is_sameness_refuted"
   ],
   "note": "C67_equality_is_sameness_refuted: NaN, signed zero and two words for true."
  },
  {
   "property": "C68",
   "status": "proved",
   "theorems": [
    "C68_second_writer",
    "C68_new_writer_continues_refuted"
   ],
   "note": "C68_new_writer_continues_refuted: without the condition the bytes differ (alignment is relative to where a Writer started)."
  },
  {
   "property": "C69",
   "status": "proved",
   "theorems": [
    "C69_calls",
    "C69_calls_of_histories"
   ],
   "note": ""
  },
  {
   "property": "C70",
   "status": "proved",
   "theorems": [
    "C70_exact_bytes",
    "C70_same_glsl_same_bytes"
   ],
   "note": ""
  },
  {
   "property": "C71",
   "status": "proved",
   "theorems": [
    "C71_layouts_coincide",
    "C71_vec4_aligned",
    "C71_flat_struct"
   ],
   "note": ""
  },
  {
   "property": "C72",
   "status": "proved",
   "theorems": [
    "C72_one_to_one",
    "C72_which_bytes",
    "C72_any_shader_value"
   ],
   "note": ""
  },
  {
   "property": "C73",
   "status": "proved",
   "theorems": [
    "C73_block_bytes"
   ],
   "note": ""
  },
  {
   "property": "C74",
   "status": "proved",
   "theorems": [
    "C74_if_it_compiles",
    "C74_end_to_end"
   ],
   "note": ""
  },
  {
   "property": "C75",
   "status": "proved",
   "theorems": [
    "C75_interchangeable",
    "C75_layouts_do_not_mix"
   ],
   "note": ""
  },
  {
   "property": "C76",
   "status": "proved",
   "theorems": [
    "C76_cursor_over_vec",
    "C76_cursor_over_slice"
   ],
   "note": ""
  },
  {
   "property": "C77",
   "status": "proved",
   "theorems": [
    "C77_buffered_lawful",
    "C77_flush",
    "C77_prefix",
    "C77_success_means_delivered_refuted"
   ],
   "note": ""
  },
  {
   "property": "C78",
   "status": "proved",
   "theorems": [
    "C78_row_major_transposes",
    "C78_same_iff_symmetric",
    "C78_host_reads_transposed"
   ],
   "note": ""
  },
  {
   "property": "C79",
   "status": "proved",
   "theorems": [
    "C79_length_iff",
    "C79_length",
    "C79_length_is_count_refuted",
    "C79_block_size_refuted"
   ],
   "note": "C79_length_is_count_refuted: two vec3 after a count have length() 1; C79_block_size_refuted: a buffer of the block's GLSL size can have too many elements."
  },
  {
   "property": "C80",
   "status": "proved",
   "theorems": [
    "C80_matrix_as_columns",
    "C80_vector_as_scalars",
    "C80_std140_scalar_array_refuted",
    "C80_newtype"
   ],
   "note": "C80_std140_scalar_array_refuted: a std140 float[3] does not see the components of a vec3."
  },
  {
   "property": "C81",
   "status": "proved",
   "theorems": [
    "C81_derived_layout_valid",
    "C81_decorated_shader_reads",
    "C81_writer_block_valid",
    "C81_std430_as_uniform_refuted",
    "C81_after_vec3_slice_refuted",
    "C81_std140_scalar_slice_refuted"
   ],
   "note": "C81_std430_as_uniform_refuted: a std430 layout is not always a valid uniform buffer; C81_after_vec3_slice_refuted: a scalar after a slice of vec3 is not a valid member; C81_std140_scalar_slice_refuted: a std140 slice of scalars has no valid stride."
  },
  {
   "property": "C82",
   "status": "proved",
   "theorems": [
    "C82_retry",
    "C82_ignored_errors",
    "C82_ignored_offsets",
    "C82_atomic_sink",
    "C82_atomic_sink_refuted",
    "C82_slice_retry_refuted"
   ],
   "note": "C82_atomic_sink_refuted: even an all-or-nothing sink gives wrong bytes when a failure falls into padding; C82_slice_retry_refuted: retrying a slice duplicates elements."
  },
  {
   "property": "C83",
   "status": "proved",
   "theorems": [
    "C83_size_bounds",
    "C83_sequence_bounds"
   ],
   "note": ""
  },
  {
   "property": "C84",
   "status": "proved",
   "theorems": [
    "C84_which_types",
    "C84_storage",
    "C84_uniform",
    "C84_plain_uniform",
    "C84_storage_block",
    "C84_std140_mat2_refuted",
    "C84_plain_uniform_refuted",
    "C84_big_endian_refuted"
   ],
   "note": ""
  },
  {
   "property": "C85",
   "status": "proved",
   "theorems": [
    "C85_layout",
    "C85_bytes",
    "C85_shader",
    "C85_round_trip",
    "C85_read_back",
    "C85_slices"
   ],
   "note": ""
  },
  {
   "property": "C86",
   "status": "proved",
   "theorems": [
    "C86_closed",
    "C86_derive_layout",
    "C86_nested_alignment",
    "C86_sizer",
    "C86_writer",
    "C86_conversion",
    "C86_same_code",
    "C86_power_of_two_needed_refuted",
    "C86_rust_alignment_needed_refuted"
   ],
   "note": "Hand-written types are primitives, repr(C) structs and arrays of primitives (without repr(align)); each implements one layout, and Debug where it is used as a field of a derived struct."
  },
  {
   "property": "C87",
   "status": "proved",
   "theorems": [
    "C87_no_panics",
    "C87_one_call",
    "C87_append_only",
    "C87_image",
    "C87_failure_leaves_prefix",
    "C87_history",
    "C87_history_offsets",
    "C87_iterator_panic"
   ],
   "note": "The panic payload and unwinding itself (drop order, abort on double panic) are Rust's, not modelled; Writer has no Drop impl. One-call and history theorems assume positions below usize::MAX + 1; C12 has the overflow cases."
  },
  {
   "property": "C88",
   "status": "proved",
   "theorems": [
    "C88_layout",
    "C88_bytes",
    "C88_round_trip",
    "C88_read_back",
    "C88_covers_C85"
   ],
   "note": "The user's functions are functions of the value (no side effects); Rust's type checker is the hypothesis that as_stdN returns values of Output."
  },
  {
   "property": "C89",
   "status": "proved",
   "theorems": [
    "C89_shader_text",
    "C89_which_compile",
    "C89_round_trip_struct",
    "C89_round_trip_primitive",
    "C89_any_device_struct",
    "C89_any_device_primitive",
    "C89_device_exists",
    "C89_member_order_refuted"
   ],
   "note": "Naga and wgpu are a parameter, specified by a fragment of GLSL (SpecProgram.v); Vec allocations are taken to be aligned enough for bytemuck::from_bytes."
  },
  {
   "property": "C90",
   "status": "proved",
   "theorems": [
    "C90_compiles",
    "C90_verdict",
    "C90_glsl",
    "C90_portable",
    "C90_field_types_refuted"
   ],
   "note": "Unsuffixed decimal literals and identifiers without r#; privacy of fields is not modelled."
  },
  {
   "property": "C91",
   "status": "proved",
   "theorems": [
    "C91_lookup",
    "C91_compiles",
    "C91_usual",
    "C91_not_imported",
    "C91_bytes",
    "C91_round_trip",
    "C91_round_trip_refuted"
   ],
   "note": "Methods found through Deref or with a &mut self receiver are not modelled; the lookup algorithm is rustc's and part of the trusted base."
  },
  {
   "property": "C92",
   "status": "proved",
   "theorems": [
    "C92_emits",
    "C92_code",
    "C92_definitions"
   ],
   "note": "Structs with generic parameters are covered at the syntax level by C34; the white space of stringify! is not modelled."
  },
  {
   "property": "C93",
   "status": "proved",
   "theorems": [
    "C93_code",
    "C93_emits"
   ],
   "note": "How Literal::string escapes a name is proc_macro2's."
  },
  {
   "property": "C94",
   "status": "proved",
   "theorems": [
    "C94_vector",
    "C94_matrix",
    "C94_module"
   ],
   "note": "The substitution of a row for the variables of macro_rules is written out by hand in PrimTokens.v."
  },
  {
   "property": "C95",
   "status": "proved",
   "theorems": [
    "C95_code",
    "C95_hosts"
   ],
   "note": "The substitution of a row for the variables of macro_rules is written out by hand in EasyTokens.v. Whether the impls type-check, and what they do, are C25, C33 and the conversions' properties."
  },
  {
   "property": "C96",
   "status": "proved",
   "theorems": [
    "C96_code"
   ],
   "note": "The substitution of a row for the variables of macro_rules is written out by hand in MintyTokens.v. What the impls do, given the conversions of the math library, is C33 and the conversions' properties."
  }
 ]
}
