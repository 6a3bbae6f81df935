{
"C01": "Any Sizer state, any type with a layout version, both layouts, any target.",
"C02": "Any list of values and any prior state with equal len(); panics coincide too.",
"C03": "For histories mixing write, write_iter and write_std; the offset theorem is for sequences of write calls.",
"C04": "Includes failing and panicking operations and arbitrary lawful sinks.",
"C05": "With overflow checks off, modulo usize::MAX + 1 (see C13).",
"C06": "For every sink, also failing ones; nested composites allowed as items.",
"C09": "Lawful sinks: Err may have delivered any prefix of the argument of write_all.",
"C10": "The documented reading of len() is refuted by the two _refuted theorems; C10_len_after_error is the exact behaviour.",
"C19": "The refuted theorem shows that the restriction to host types is needed.",
"C27": "The claim that Bool equality is boolean equality is refuted; the exact condition is C27_bool_equality.",
"C30": "The documented 'All GLSL primitives implement Glsl' fails for bool only (C30_which_names_exist); generic structs are refuted.",
"C31": "Documented power-of-two claim refuted for size-0 std430 structs only.",
"C34": "Where-clauses and visibility are not modelled. Documented claim refuted in four ways.",
"C36": "Exact iff; the documented reading (slices are arrays) is refuted for std140 scalars.",
"C39": "Exact iff; a scalar after a vec3 slice is the counterexample.",
"C41": "Field sizes are host sizes; refuted as layout sizes, and as host sizes for a struct called Field (shadowed inside debug_metrics). The text is proved injective.",
"C42": "Exact iff for ASCII names; raw identifiers and GLSL keywords are counterexamples.",
"C45": "Counts calls of padding functions in the call tree, without memoisation; some rustc versions memoise zero-argument const fn calls, others interpret every call.",
"C47": "The documented return value is refuted for non-fused iterators only. Item implementations are arbitrary user code.",
"C48": "Implementations that never return, or catch panics, are not modelled.",
"C49": "For derived structs; offsets, bytes and trailing zero padding.",
"C50": "Endianness: the unrestricted claim is refuted.",
"C52": "The renamed type is assumed to be accepted (acceptance is C34/C35).",
"C58": "Types embedding raw layout values or crevice::Bool are excluded: their host values are not determined by what GLSL sees (C19, C27).",
"C61": "C61_sizer_covers_struct_refuted exhibits a struct whose Sizer length (12) is less than its size (16).",
"C62": "The casts themselves are bytemuck's, modelled in Cast.v from the Rust layout of slices.",
"C63": "C63_sum_suffices_refuted: f32 then vec3 need 28 bytes, their sizes sum to 16.",
"C66": "C66_decreasing_alignment_refuted: the counterexample with 3-vectors.",
"C67": "C67_equality_is_sameness_refuted: NaN, signed zero and two words for true.",
"C68": "C68_new_writer_continues_refuted: without the condition the bytes differ (alignment is relative to where a Writer started).",
"C79": "C79_length_is_count_refuted: two vec3 after a count have length() 1; C79_block_size_refuted: a buffer of the block's GLSL size can have too many elements.",
"C80": "C80_std140_scalar_array_refuted: a std140 float[3] does not see the components of a vec3.",
"C81": "C81_std430_as_uniform_refuted: a std430 layout is not always a valid uniform buffer; C81_after_vec3_slice_refuted: a scalar after a slice of vec3 is not a valid member; C81_std140_scalar_slice_refuted: a std140 slice of scalars has no valid stride.",
"C82": "C82_atomic_sink_refuted: even an all-or-nothing sink gives wrong bytes when a failure falls into padding; C82_slice_retry_refuted: retrying a slice duplicates elements.",
"C86": "Hand-written types are primitives, repr(C) structs and arrays of primitives (without repr(align)); each implements one layout, and Debug where it is used as a field of a derived struct.",
"C87": "The panic payload and unwinding itself (drop order, abort on double panic) are Rust's, not modelled; Writer has no Drop impl. One-call and history theorems assume positions below usize::MAX + 1; C12 has the overflow cases.",
"C88": "The user's functions are functions of the value (no side effects); Rust's type checker is the hypothesis that as_stdN returns values of Output.",
"C89": "Naga and wgpu are a parameter, specified by a fragment of GLSL (SpecProgram.v); Vec allocations are taken to be aligned enough for bytemuck::from_bytes.",
"C90": "Unsuffixed decimal literals and identifiers without r#; privacy of fields is not modelled.",
"C91": "Methods found through Deref or with a &mut self receiver are not modelled; the lookup algorithm is rustc's and part of the trusted base.",
"C92": "Structs with generic parameters are covered at the syntax level by C34; the white space of stringify! is not modelled.",
"C93": "How Literal::string escapes a name is proc_macro2's.",
"C94": "The substitution of a row for the variables of macro_rules is written out by hand in PrimTokens.v.",
"C95": "The substitution of a row for the variables of macro_rules is written out by hand in EasyTokens.v. Whether the impls type-check, and what they do, are C25, C33 and the conversions' properties.",
"C96": "The substitution of a row for the variables of macro_rules is written out by hand in MintyTokens.v. What the impls do, given the conversions of the math library, is C33 and the conversions' properties."
}