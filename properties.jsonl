{"id": "C01", "title": "Sizer::add returns the smallest aligned offset", "statement": "Every call Sizer::add::<T>() returns the least multiple of T's ALIGNMENT that is >= len() before the call (len() itself when ALIGNMENT is 0), and afterwards len() is that offset plus T's size; as long as nothing overflows usize.", "quantifier": "every sequence of added types (any AsStd140/AsStd430 type the crate can produce), every prior state of the Sizer, both layouts, every target", "why_tests_cant": "the padding depends on the running offset modulo the alignment; tests sample a handful of (offset, alignment) pairs", "anchors": ["src/internal.rs: align_offset", "src/std140/sizer.rs: Sizer::add, Sizer::len", "src/std430/sizer.rs"]}
{"id": "C02", "title": "Sizer and Writer agree", "statement": "For any list of values, the offsets returned by writer.write(&v_i) on a fresh Writer equal those returned by sizer.add::<T_i>() on a fresh Sizer, and the final len() of both are equal (when no I/O error occurs).", "quantifier": "every finite list of (type, value) pairs, both layouts, every lawful io::Write sink that does not fail", "why_tests_cant": "the list of types is unbounded and each step depends on all earlier ones", "anchors": ["src/std140/sizer.rs", "src/std140/writer.rs: Writer::write", "src/std430/sizer.rs", "src/std430/writer.rs"]}
{"id": "C03", "title": "The bytes produced by Writer are exactly the values at their offsets and zero elsewhere", "statement": "After a sequence of successful writes the bytes handed to the sink are: for each value its as_bytes() at the returned offset, and 0x00 at every position not covered by a value; total length is len(). Offsets are increasing and regions do not overlap.", "quantifier": "every finite list of values, both layouts, every lawful sink", "why_tests_cant": "the image depends on the whole history of writes; a byte-exact claim for all histories is not testable", "anchors": ["src/std140/writer.rs: Writer::write_std140, Writer::write", "src/std430/writer.rs"]}
{"id": "C04", "title": "Writer is append-only", "statement": "No write, successful or failed, changes or removes bytes already delivered to the sink: the delivered byte string after any operation has the delivered byte string before it as a prefix.", "quantifier": "every sequence of operations including failing ones, every lawful sink", "why_tests_cant": "ranges over all histories and all failure points", "anchors": ["src/std140/writer.rs", "src/std430/writer.rs"]}
{"id": "C05", "title": "len() equals the number of bytes written, in the absence of errors", "statement": "As long as every operation has returned Ok, writer.len() equals the number of bytes the sink has received through this Writer (and does not exceed usize::MAX).", "quantifier": "every sequence of write / write_iter / slice writes", "why_tests_cant": "holds only as an invariant over all operation sequences", "anchors": ["src/std140/writer.rs: Writer::len", "src/std430/writer.rs: Writer::len"]}
{"id": "C06", "title": "write_iter, slice writes and element-by-element writes are the same operation", "statement": "writer.write_iter(items), writer.write(&items[..]), write_slice(items) and the loop `for x in items { writer.write(x)? }` leave the same bytes, the same len() and the same error status; the first two return the offset of the first element, or len() unchanged when there are no items. In particular each element is written exactly once.", "quantifier": "every list of items (including empty), every writer state, every sink including failing ones", "why_tests_cant": "unbounded lists; a past release wrote the first element twice (#46) and passed its tests", "anchors": ["src/std140/writer.rs: write_iter, write_slice", "src/std140/traits.rs: impl WriteStd140 for [T]", "src/std430/traits.rs: impl WriteStd430 for [T]"]}
{"id": "C07", "title": "All size queries agree", "statement": "For every AsStd140 type and value: std140_size_static(), std140_size(), as_std140().as_bytes().len(), and len() of a fresh Sizer or Writer after that one value are the same number; likewise std430.", "quantifier": "every type, every value, both layouts", "why_tests_cant": "ranges over all derived types", "anchors": ["src/std140/traits.rs: std140_size_static, std140_size, as_bytes", "src/std430/traits.rs"]}
{"id": "C08", "title": "std140_size of a dynamically sized value is what a fresh Writer produces", "statement": "For any WriteStd140 value (slice, or user type that writes a sequence of parts), std140_size() equals the number of bytes written by writing it to a fresh Writer, and never panics unless the offset overflows usize.", "quantifier": "every nesting of slices and composite values", "why_tests_cant": "unbounded nesting and lengths", "anchors": ["src/std140/traits.rs: WriteStd140::std140_size", "src/std430/traits.rs"]}
{"id": "C09", "title": "A failing sink leaves a prefix of the fault-free image", "statement": "If the sink fails at any point while a sequence of values is written, the bytes delivered so far are a prefix of the bytes that would have been delivered without the failure, the error is reported to the caller, no later element is written in that call, and len() is at most the number of bytes delivered.", "quantifier": "every sequence of values, every failure point (any byte), short writes and interrupted writes included", "why_tests_cant": "every crash point of every history", "anchors": ["src/std140/writer.rs: write_std140", "src/std430/writer.rs: write_std430"]}
{"id": "C10", "title": "len() after an I/O error", "statement": "len() is documented to return 'the amount of data written by this Writer'. Exactly: after a failed write of one value through a Writer whose len() was the number of bytes delivered, either the failure happened in the padding, len() is unchanged and k of the padding bytes were delivered; or it happened in the value, len() includes the padding but none of the k delivered bytes of the value. So len() can be smaller than the number of bytes delivered, and a write after an ignored error can return an Ok offset at which the value is not.", "quantifier": "every failure point", "why_tests_cant": "needs every failure point, including mid-padding and mid-value", "anchors": ["src/std140/writer.rs: write_std140, len"]}
{"id": "C11", "title": "A fixed-size buffer works exactly when it is large enough", "statement": "Writing a list of values through a Writer over a &mut [u8] of capacity c succeeds if and only if c >= the len() a Sizer reports for those types; no byte past the capacity is written, bytes of the buffer beyond the image are untouched.", "quantifier": "every list of values, every capacity", "why_tests_cant": "boundary behaviour for all sizes", "anchors": ["src/std140/sizer.rs", "src/std140/writer.rs", "README.md (map_gpu_buffer_for_write example)"]}
{"id": "C12", "title": "Overflow is detected, never mis-reported (overflow checks on)", "statement": "When compiled with overflow checks, Sizer::add and Writer::write either return the mathematically correct offset or panic, and they panic exactly when the mathematically correct end offset exceeds usize::MAX.", "quantifier": "every list of types, every usize width", "why_tests_cant": "the overflowing inputs are astronomically large on 64-bit targets", "anchors": ["src/std140/sizer.rs: add", "src/std140/writer.rs: write_std140"]}
{"id": "C13", "title": "Alignment survives wrap-around (overflow checks off)", "statement": "When compiled without overflow checks, even if the running offset wraps modulo 2^bits, every value is still placed at a stream position that is a multiple of its ALIGNMENT, the bytes are those of the non-wrapping layout, and the reported offset is the true one modulo 2^bits.", "quantifier": "every list of values, every usize width", "why_tests_cant": "needs more than 2^32 or 2^64 bytes of data to reach", "anchors": ["src/internal.rs: align_offset", "src/std140/writer.rs", "src/std140/sizer.rs"]}
{"id": "C14", "title": "Generated structs contain no implicit padding (Pod is sound)", "statement": "For every struct accepted by derive(AsStd140) or derive(AsStd430), the #[repr(C)] layout rustc gives the generated struct has no compiler-inserted padding, before, between or after fields, so every byte that as_bytes() exposes is initialised.", "quantifier": "every tree of nested derived structs, every target's primitive alignments", "why_tests_cant": "unsafe impl Pod is asserted by the macro for all structs; one counterexample is undefined behaviour", "anchors": ["crevice-derive/src/layout.rs: emit", "src/std140/primitives.rs: matrices!, vectors!", "src/std430/primitives.rs"]}
{"id": "C15", "title": "std140 member offsets follow the GLSL specification", "statement": "In the output of derive(AsStd140), each field sits at the offset the std140 rules (OpenGL 4.6, 7.6.2.2) assign to the corresponding member, recursively.", "quantifier": "every struct tree", "why_tests_cant": "the rules compose through nesting; tests cover about a dozen shapes", "anchors": ["crevice-derive/src/layout.rs: emit, offset_after_field, pad_fn_impls", "crevice-derive/src/lib.rs: derive_as_std140"]}
{"id": "C16", "title": "std430 member offsets follow the GLSL specification", "statement": "In the output of derive(AsStd430), each field sits at the offset the std430 rules assign to the corresponding member, recursively.", "quantifier": "every struct tree", "why_tests_cant": "as for std140", "anchors": ["crevice-derive/src/layout.rs: emit", "crevice-derive/src/lib.rs: derive_as_std430"]}
{"id": "C17", "title": "Size and ALIGNMENT of generated structs", "statement": "The ALIGNMENT of a derived struct equals the GLSL base alignment (largest member alignment; at least 16 in std140) and its size is the member extent rounded up to ALIGNMENT, hence a multiple of it.", "quantifier": "every struct tree, both layouts", "why_tests_cant": "ranges over all structs", "anchors": ["crevice-derive/src/layout.rs: struct_alignment", "src/internal.rs: max_arr"]}
{"id": "C18", "title": "Padding computation of the derive macro always terminates and never recurses forever", "statement": "The const functions generated for a struct's padding call each other only towards smaller indices; evaluating any of them terminates, and yields the distance from the end of the field to the next field's aligned offset (or the struct's aligned end).", "quantifier": "structs with any number of fields of any sizes and alignments", "why_tests_cant": "the comment in the macro warns 'Be careful not to cause recursion!'; tests have at most 4 fields", "anchors": ["crevice-derive/src/layout.rs: offset_after_field, pad_fn_impls"]}
{"id": "C19", "title": "All padding bytes of as_std140/as_std430 are zero", "statement": "Every byte of x.as_std140().as_bytes() that belongs to no scalar component of the corresponding GLSL type is 0x00, for every type built from host types; likewise std430. It fails only for types that contain layout types supplied by the user (e.g. a std140::Mat3 made from bytes), whose padding is copied.", "quantifier": "every type tree and value, both layouts", "why_tests_cant": "README: 'explicitly initializes padding'; all values of all types", "anchors": ["crevice-derive/src/layout.rs: generated_struct_field_init (..zeroed())", "src/util.rs: easy_impl!"]}
{"id": "C20", "title": "from_std140 inverts as_std140", "statement": "T::from_std140(x.as_std140()) == x for every value, bit-for-bit including NaN payloads; likewise std430, derived structs, math types, bool, DynamicUniform.", "quantifier": "every type tree and value", "why_tests_cant": "tests check one value of one struct", "anchors": ["src/util.rs: easy_impl!", "crevice-derive/src/layout.rs", "src/std140/primitives.rs: AsStd140 for bool", "src/std140/dynamic_uniform.rs"]}
{"id": "C21", "title": "as_std140 after from_std140 only normalises padding and booleans", "statement": "For any Std140 value s of a host type's Output (e.g. read back from the GPU, with arbitrary padding and booleans), T::from_std140(s).as_std140() denotes the same GLSL value as s and has all padding bytes zero; repeating it changes nothing more.", "quantifier": "every bit pattern of every Output type", "why_tests_cant": "all 2^(8*size) bit patterns", "anchors": ["src/bool.rs", "src/util.rs", "crevice-derive/src/layout.rs"]}
{"id": "C22", "title": "Bytes and generated structs are in bijection (Pod)", "statement": "Every byte string of length size_of::<Output>() decodes to exactly one Output value whose as_bytes() is that byte string, and as_bytes() has length size_of.", "quantifier": "all byte strings of the right length, all types", "why_tests_cant": "all bit patterns of all types", "anchors": ["src/std140/traits.rs: as_bytes", "crevice-derive/src/layout.rs: unsafe impl Pod"]}
{"id": "C23", "title": "The GPU reads what the host wrote", "statement": "A shader that reads a variable of the corresponding GLSL type from the bytes of x.as_std140() according to the std140 rules obtains the value of x: every scalar, vector component, matrix column and nested member; likewise std430.", "quantifier": "every type tree and value, both layouts, both endiannesses", "why_tests_cant": "end-to-end composition of offsets, strides, padding and encoding for all types", "anchors": ["crevice-derive/src/layout.rs", "src/util.rs", "src/std140/primitives.rs", "src/std430/primitives.rs"]}
{"id": "C24", "title": "The host reads what the GPU wrote", "statement": "For any buffer contents of the right size, reinterpreting it as Output and calling from_std140 gives the same value a shader reading that buffer under std140 rules would see, whatever is in the padding; likewise std430.", "quantifier": "every byte string, every type tree", "why_tests_cant": "all buffer contents", "anchors": ["src/std140/traits.rs: from_std140", "src/bool.rs: From<Bool> for bool"]}
{"id": "C25", "title": "Built-in vector and matrix types match GLSL", "statement": "Every std140/std430 vector and matrix type has the ALIGNMENT and size and column stride that GLSL prescribes for the type it names. Every supported mint, cgmath, glam and nalgebra type (and no other) converts to the layout type of its shape, and for every choice of components a shader sees in the bytes the vector with these components (x first; bool components as truth values), or the matrix with these columns.", "quantifier": "every row of the vectors!/matrices! tables in both modules; every supported math type and every value of its components", "why_tests_cant": "finite, but tests cover only a few rows and not all offsets", "anchors": ["src/std140/primitives.rs: vectors!, matrices!", "src/std430/primitives.rs: vectors!, matrices!"]}
{"id": "C26", "title": "Bool conversions", "statement": "true becomes the 32-bit word 1 and false 0; any nonzero word read back is true, zero is false.", "quantifier": "all 2^32 words", "why_tests_cant": "all words; also inside vectors and structs", "anchors": ["src/bool.rs"]}
{"id": "C27", "title": "Bool equality is equality of the stored words", "statement": "Two Bool values compare equal exactly when their 32-bit words are equal. This agrees with equality of the booleans they convert to exactly when the words are equal or one of them is zero; in particular for all Bools made from Rust booleans, but not for the words 1 and 2, which a GPU may store and which both convert to true. The Debug text shows the boolean, so unequal Bools can print alike.", "quantifier": "all pairs of 32-bit words (a Bool is Pod, so any word can be read back from a GPU)", "why_tests_cant": "needs non-canonical words", "anchors": ["src/bool.rs: derive(Eq, PartialEq), unsafe impl Pod"]}
{"id": "C28", "title": "DynamicUniform aligns to at least 256 without changing the size", "statement": "Values wrapped in DynamicUniform are written at offsets that are multiples of 256 (and of the inner ALIGNMENT), occupy exactly as many bytes as the inner value with the same contents, and round-trip.", "quantifier": "every inner type and value, every writer position", "why_tests_cant": "every prior offset and inner type", "anchors": ["src/std140/dynamic_uniform.rs"]}
{"id": "C29", "title": "glsl_definition denotes the struct", "statement": "Parsing the text returned by glsl_definition() as GLSL yields exactly one structure declaration, with the struct's name and its fields in declaration order with their GLSL type names, if and only if all emitted names are valid GLSL names and the struct has at least one field; otherwise the text is rejected: it never denotes a different struct. The derive rejects everything but structs with named fields.", "quantifier": "every struct name and field list made of valid identifiers, any number of fields", "why_tests_cant": "unbounded number of fields and names", "anchors": ["src/glsl.rs: GlslStruct::glsl_definition", "crevice-derive/src/glsl.rs: emit"]}
{"id": "C30", "title": "The GLSL name of a type denotes the type whose layout crevice uses", "statement": "If a Rust type has a GLSL NAME, then that name resolves (as a GLSL built-in, or to the struct declared by its glsl_definition in a program that concatenates the definitions of the structs used) to the GLSL type whose std140 and std430 layouts are those crevice uses for the Rust type. Every scalar, vector and square-matrix GLSL type except bool is the NAME of some Rust type; bool is the NAME of none. The types without a NAME are exactly bool, DynamicUniform, the Output types other than those of scalars, vectors and matrices, and structs with such a field. Instances of a generic struct share one NAME and are the exception.", "quantifier": "every type with a Glsl implementation", "why_tests_cant": "links two independent macros through all types", "anchors": ["src/glsl.rs: Glsl", "src/util.rs: easy_impl! Glsl", "crevice-derive/src/glsl.rs"]}
{"id": "C31", "title": "ALIGNMENT is a power of two", "statement": "Std140::ALIGNMENT is a power of two for every type that implements the trait, as documented. Std430::ALIGNMENT is a power of two, or it is 0, and it is 0 only for derived structs of size 0 (no fields, or only fields of that kind), contrary to the documentation.", "quantifier": "every type, derived structs included", "why_tests_cant": "ranges over all structs including empty ones", "anchors": ["src/std140/traits.rs: Std140::ALIGNMENT", "src/std430/traits.rs: Std430::ALIGNMENT", "crevice-derive/src/lib.rs: derive_as_std430 (0)"]}
{"id": "C32", "title": "std430 is never larger than std140", "statement": "For any type that supports both layouts, the std430 ALIGNMENT and size do not exceed the std140 ones, and every field's std430 offset is at most its std140 offset.", "quantifier": "every struct tree", "why_tests_cant": "ranges over all structs", "anchors": ["crevice-derive/src/layout.rs", "src/std430/primitives.rs"]}
{"id": "C33", "title": "Math-library types lay out like their mint counterparts", "statement": "glam and nalgebra types have the Output of the mint type they convert to and produce its bytes; they round-trip whenever the library's own conversions to and from mint do. cgmath types lay out identically to the mint type of the same shape.", "quantifier": "every supported math type and value, given the library conversions", "why_tests_cant": "all values of all types", "anchors": ["src/util.rs: minty_impl!", "src/imp/imp_glam.rs", "src/imp/imp_nalgebra.rs", "src/imp/imp_cgmath.rs", "src/imp/imp_mint.rs"]}
{"id": "C34", "title": "Which structs derive accepts", "statement": "The derive macro panics (compile error) exactly on tuple structs, unit structs, enums and unions; its output never compiles for structs with generic parameters; a named struct without generics is accepted if and only if every field type implements the trait, no field is directly a DynamicUniform, no field is called _pad<i> with i below the number of fields, and the struct fits the target's object size. So the documented 'any struct which contains only fields that also implement AsStd140 can derive AsStd140' is false in four ways.", "quantifier": "every derive input", "why_tests_cant": "ranges over all struct definitions and field names", "anchors": ["crevice-derive/src/layout.rs: emit (match input.data; type Output = #generated_name; _pad{index})"]}
{"id": "C35", "title": "Generated helper names never collide", "statement": "The padding functions generated for two different (struct, layout, field index) triples in the same module have different names, so they never prevent deriving on several structs and for both layouts in one module. In a module with several deriving structs all generated items are distinct; a generated struct clashes with a user's struct exactly if the user named one Std140X or Std430X for a struct X deriving that layout.", "quantifier": "every pair of struct names and indices", "why_tests_cant": "all identifiers, e.g. struct names that themselves look like generated names", "anchors": ["crevice-derive/src/layout.rs: pad_fns (format_ident!)"]}
{"id": "C36", "title": "When slices written by std140::Writer have GLSL array layout", "statement": "writer.write(&slice) through std140::Writer places the elements where the std140 GLSL array of that element type has them, so that a shader declaring the array reads the elements, if and only if the base alignment of the element type is at least 16 (structs, three- and four-component vectors, matrices, double vectors); slices of scalars and two-component vectors of 32-bit scalars (two or more elements) are not laid out as arrays. The offsets are given exactly in every case.", "quantifier": "every element type and length", "why_tests_cant": "depends on element size/alignment classes; documentation example only covers structs", "anchors": ["src/std140/traits.rs: impl WriteStd140 for [T]", "src/lib.rs: Sequential Types example"]}
{"id": "C37", "title": "Slices written by std430::Writer have GLSL array layout", "statement": "writer.write(&slice) with std430 places element i at offset first + i*stride, with stride the std430 array stride of the element type.", "quantifier": "every element type and length", "why_tests_cant": "all element types and lengths", "anchors": ["src/std430/traits.rs: impl WriteStd430 for [T]"]}
{"id": "C38", "title": "Writer lays out a sequence of members like a GLSL block", "statement": "Writing values one after another through a fresh Writer places each at the offset GLSL assigns to the corresponding member of an interface block with those members in that order (scalars, vectors, matrices, structs), optionally followed by a slice standing for a runtime-sized array (in std140 one whose element alignment is at least 16), and a shader that declares the block reads the values that were written.", "quantifier": "every member list", "why_tests_cant": "unbounded member lists", "anchors": ["src/std140/writer.rs", "src/lib.rs: Sequential Types example"]}
{"id": "C39", "title": "When a member after a slice sits where GLSL puts it", "statement": "A value written after a non-empty slice of array-compatible elements lands at the offset GLSL assigns to a member following an array of that element type and length if and only if the value's base alignment exceeds the padding that GLSL adds after the last element (array stride minus element size). When that holds for every slice of a block, a shader that declares the block with its arrays reads all the values. A scalar after a slice of vec3 is the typical failure.", "quantifier": "every element type, length and following type", "why_tests_cant": "depends on trailing array padding", "anchors": ["src/std140/traits.rs: impl WriteStd140 for [T]", "src/std430/traits.rs"]}
{"id": "C40", "title": "Writing is position independent at aligned positions", "statement": "Writing a value (including slices and composites) when len() is a multiple of every alignment occurring in it appends exactly the bytes that writing it to a fresh Writer would produce, adds std140_size() to len(), and returns the offset the fresh Writer returned plus len().", "quantifier": "every value and aligned start offset", "why_tests_cant": "all positions and values", "anchors": ["src/std140/writer.rs", "src/std140/traits.rs"]}
{"id": "C41", "title": "debug_metrics reports the layout of the generated struct", "statement": "With the debug-methods feature, debug_metrics() of a generated struct reports the size and ALIGNMENT of the struct and the names (as written in the source, with r# for raw identifiers) and offsets of its fields in the generated layout; as size of a field it reports size_of of the host type, which equals the field's size in the generated layout only when the two happen to agree (not for bool or mat3), and for a field whose type is a user struct called Field it reports the size of four machine words. The numerals and quoted names in the text are exactly the reported data, in order, so the text determines it.", "quantifier": "every derived struct", "why_tests_cant": "all structs", "anchors": ["crevice-derive/src/layout.rs: debug_methods"]}
{"id": "C42", "title": "Which names in generated GLSL are valid identifiers", "statement": "The name emitted by derive(GlslStruct) for an ASCII Rust identifier is a valid GLSL identifier if and only if it is not a raw identifier (r#name), not a GLSL keyword or reserved word, and does not start with gl_. A struct with a raw identifier as field name always produces text that is not GLSL.", "quantifier": "every Rust field identifier, raw identifiers included", "why_tests_cant": "raw identifiers are never tested", "anchors": ["crevice-derive/src/glsl.rs: emit (ident.to_string())"]}
{"id": "C43", "title": "Scalar and vector types have identical bytes in both layouts", "statement": "For scalars, vectors and all matrices except mat2 (and bool types), as_std140().as_bytes() == as_std430().as_bytes() for every value.", "quantifier": "every such type and value", "why_tests_cant": "all values", "anchors": ["src/std140/primitives.rs", "src/std430/primitives.rs", "src/util.rs"]}
{"id": "C44", "title": "max and max_arr compute maxima", "statement": "The alignment helper used by generated code returns an upper bound of its inputs that is one of them (0 for an empty array), without ever indexing out of bounds.", "quantifier": "arrays of any length and contents", "why_tests_cant": "all arrays", "anchors": ["src/internal.rs: max, max_arr"]}
{"id": "C45", "title": "Compile-time cost of the padding functions", "statement": "In the call tree of const evaluation (i.e. when the compiler does not memoise const fn calls), evaluating the padding function of field i makes exactly 2^i calls of padding functions, so laying out a struct with n fields makes exactly 2^n - 1: not bounded by any polynomial in the number of fields.", "quantifier": "every struct the derive macro accepts, any number of fields, both layouts", "why_tests_cant": "tests compile structs of a few fields; the growth law is about all field counts", "anchors": ["crevice-derive/src/layout.rs: emit (pad_fns)"]}
{"id": "C46", "title": "ALIGNMENT is enough for Rust references", "statement": "For every type with a layout version, a position that is a multiple of ALIGNMENT is a multiple of the Rust alignment (align_of) of Output on every target, and so is the size of Output; so bytes at written offsets of an aligned buffer, and the elements of a slice there, can be viewed as &Output.", "quantifier": "every type built from primitives, library types and derives; every target; every offset", "why_tests_cant": "depends on the target's primitive alignments and on all nestings of types", "anchors": ["crevice-derive/src/layout.rs: emit", "src/std140/primitives.rs", "src/std430/primitives.rs", "src/std140/traits.rs: Std140::ALIGNMENT"]}
{"id": "C47", "title": "write_iter on arbitrary iterators", "statement": "Writer::write_iter on an iterator that yields finitely many items and then None terminates and does exactly what Writer::write does with a slice of the same items: same bytes, same len(), same result. It stops pulling at the first item whose write fails and returns that error. On an iterator that never ends, over a fixed &mut [u8] and non-zero-sized values, it terminates with WriteZero after filling the buffer. (The documented return value is wrong only for iterators that yield items after returning None: next() is called again after a first None.)", "quantifier": "every iterator (any state type and next function), every item type including user-defined WriteStd140/WriteStd430 implementations, every sink, every writer state", "why_tests_cant": "iterators, item implementations and sinks range over arbitrary user code", "anchors": ["src/std140/writer.rs: Writer::write_iter", "src/std430/writer.rs: Writer::write_iter"]}
{"id": "C48", "title": "User-defined WriteStd140/WriteStd430 implementations", "statement": "Whatever a user implementation of write_std140 does with the Writer: delivered bytes are only appended to, never changed; if all its calls succeed, the sink received exactly the values written, each at the first aligned position after the previous one, with zeros elsewhere, each call returned the position of its value and len() is the total; on sinks that cannot fail its behaviour does not depend on the sink, so the default std140_size() equals the number of bytes a real write produces; an implementation that propagates errors with ? stops at the first failing call and leaves a prefix of the fault-free bytes. The built-in implementations (AsStd140 types, slices) are instances.", "quantifier": "every implementation of WriteStd140/WriteStd430 (a tree of len() and write_std140 calls with arbitrary data-dependent control flow), every sink satisfying the write_all contract, every target", "why_tests_cant": "the implementation is arbitrary user code generic in the sink; tests fix one implementation and one sink", "anchors": ["src/std140/traits.rs: WriteStd140 (write_std140, std140_size), impl for T: AsStd140, impl for [T]", "src/std430/traits.rs: WriteStd430", "src/std140/writer.rs: Writer::write_std140, Writer::len"]}
{"id": "C49", "title": "A struct is its fields written one by one", "statement": "Writing the fields of a derived struct one by one, in order, through a fresh Writer succeeds, returns exactly the offsets the fields have in the generated Std140/Std430 struct, and produces as_std140().as_bytes() of the struct up to its trailing padding; the trailing padding is zero; the bytes at each returned offset are the field's own as_std140().as_bytes().", "quantifier": "every derived struct of any nesting and number of fields, every value, both layouts, every target", "why_tests_cant": "relates the const-evaluated derive layout with the runtime Writer arithmetic for all structs", "anchors": ["crevice-derive/src/layout.rs: emit", "src/std140/writer.rs: Writer::write", "src/std430/writer.rs: Writer::write", "src/internal.rs: align_offset"]}
{"id": "C50", "title": "Layouts and bytes do not depend on the target", "statement": "Size, ALIGNMENT, every field offset (also by path into nested fields) of a layout type are the same on every target, build profile and pointer width, although Rust's own alignments differ (i686, AVR); a type accepted on one target is accepted on every target whose maximum object size is at least as large; targets of the same endianness produce the same bytes for the same value and read each other's bytes back. (Bytes of a big-endian host differ; nothing in the crate converts them.)", "quantifier": "every pair of targets (alignments of primitives, endianness, usize width, overflow checks), every type, every value, both layouts", "why_tests_cant": "tests run on one target", "anchors": ["src/std140/primitives.rs", "src/std430/primitives.rs", "crevice-derive/src/layout.rs: emit", "src/std140/traits.rs: Std140::as_bytes"]}
{"id": "C51", "title": "Appending fields is backwards compatible", "statement": "If a derived struct is extended by further fields at the end, every old field keeps its offset, size and ALIGNMENT do not decrease, and the bytes up to the end of the last old field are unchanged for values that agree on the old fields.", "quantifier": "every struct, every list of appended fields, every value, both layouts, every target", "why_tests_cant": "ranges over all pairs of structs where one extends the other", "anchors": ["crevice-derive/src/layout.rs: emit", "src/internal.rs: align_offset"]}
{"id": "C52", "title": "Names do not influence bytes", "statement": "Renaming structs and fields, at any depth, in a type that stays acceptable changes neither ALIGNMENT, size, the list of field offsets, nor any byte of any value.", "quantifier": "every type, every renaming at any depth, every value, both layouts, every target", "why_tests_cant": "ranges over all renamings; generated helper names (_padN, pad functions) could capture user names", "anchors": ["crevice-derive/src/layout.rs: emit", "src/util.rs: easy_impl"]}
{"id": "C53", "title": "Layouts are as small as possible", "statement": "The fields of a derived struct are aligned and do not overlap, and in every placement of the fields in declaration order with these properties each field is at the same or a larger offset and the struct, padded to its ALIGNMENT, is at least as large; the same holds for the offsets and len() of a Sizer (and, with C02, a Writer): no byte of padding is unnecessary.", "quantifier": "every struct and every alternative placement of its fields; every sequence of Sizer::add calls", "why_tests_cant": "quantifies over all alternative placements", "anchors": ["crevice-derive/src/layout.rs: emit", "src/std140/sizer.rs: Sizer::add", "src/std430/sizer.rs: Sizer::add"]}
{"id": "C54", "title": "Sizer offsets are usable for copying by hand", "statement": "Allocating Sizer::len() zero bytes and copying as_std140().as_bytes() of each value to the offset Sizer::add returned for its type, in any order, never goes out of bounds, and produces exactly the bytes a Writer produces.", "quantifier": "every list of values of any types, every order of copying, both layouts, every target", "why_tests_cant": "all permutations of all lists", "anchors": ["src/std140/sizer.rs: Sizer::add, Sizer::len", "src/std140/writer.rs: Writer::write", "src/std140/traits.rs: Std140::as_bytes"]}
{"id": "C55", "title": "Values are found at the offsets write returned", "statement": "After a sequence of successful Writer::write calls, every value written can be found again at the offset its call returned: the offset is aligned to ALIGNMENT, bytemuck::from_bytes and from_std140 applied to the bytes there restore the value, and a shader reading a variable of the corresponding GLSL type at that offset sees the value.", "quantifier": "every sequence of values of any types, every sink satisfying the write_all contract, both layouts, every target", "why_tests_cant": "end-to-end statement over all histories and types", "anchors": ["src/std140/writer.rs: Writer::write", "src/std430/writer.rs: Writer::write", "src/std140/traits.rs: AsStd140::from_std140"]}
{"id": "C56", "title": "Dynamic uniform buffers", "statement": "Writing a slice of DynamicUniform<T> with std140::Writer puts element i at i * stride, where stride is the std140 size of T rounded up to 256; the host and a shader declaring a T find element i there. No type containing a DynamicUniform, at any depth, has a std430 version.", "quantifier": "every element type, every slice length, every value, every target", "why_tests_cant": "all lengths and element types", "anchors": ["src/std140/dynamic_uniform.rs: DynamicUniform, DynamicUniformStd140", "src/std140/writer.rs: Writer::write"]}
{"id": "C57", "title": "Zeroed memory is the zero value", "statement": "Reading size_of::<Output>() zero bytes as Output gives Zeroable::zeroed(), whose as_bytes() are zero; from_std140 of it is a host value whose as_std140 bytes are again all zero, and host and shader both see the value all of whose components are zero (false).", "quantifier": "every type, both layouts, every target", "why_tests_cant": "all types", "anchors": ["src/std140/traits.rs: Std140, AsStd140", "crevice-derive/src/layout.rs: Zeroable impl", "src/util.rs: easy_impl"]}
{"id": "C58", "title": "GPU round trip", "statement": "Upload x.as_std140().as_bytes(), let a shader copy the variable into another buffer, either as a whole or member by member (in any order, with repetitions), download and call from_std140: the result is x, whatever the output buffer contained before, whatever the GPU does to padding bytes inside a stored variable, and whichever nonzero word it uses for true.", "quantifier": "every type with a GLSL counterpart, every value, every input and output buffer and position, every GPU that respects the layout rules, both layouts, every target", "why_tests_cant": "the crate's GPU tests try a few values on one GPU; here all values and all conforming GPUs", "anchors": ["crevice-tests/src/gpu.rs: test_round_trip_struct, test_round_trip_primitive, struct_copy", "src/std140/traits.rs: AsStd140", "src/std430/traits.rs: AsStd430"]}
{"id": "C59", "title": "A shader assignment is a Rust assignment", "statement": "If a shader assigns to a part of a block named by a path of members, vector components and matrix columns, then what the host reads from the block afterwards is what it read before with the same assignment made to the Rust value: the assigned field changes, no other field does.", "quantifier": "every type, every path into it, every old and new value, every buffer and position, both layouts, every target", "why_tests_cant": "all paths in all types; overlapping or misplaced fields would corrupt neighbours only for some types", "anchors": ["crevice-derive/src/layout.rs: emit", "src/std140/primitives.rs", "src/std430/primitives.rs", "src/std140/traits.rs: AsStd140::from_std140"]}
{"id": "C60", "title": "Partial updates from the host", "statement": "Copying w.as_std140().as_bytes() over the bytes at the Rust offset of a (nested) field of the Output struct in a buffer changes the value read back from the buffer exactly by assigning w to that field: no neighbouring field is disturbed.", "quantifier": "every type, every path to a field, every old and new value, every buffer and position, both layouts, every target", "why_tests_cant": "all pairs of types and paths", "anchors": ["crevice-derive/src/layout.rs: emit", "src/std140/traits.rs: Std140::as_bytes, AsStd140", "src/std430/traits.rs: Std430::as_bytes, AsStd430"]}
{"id": "C61", "title": "Sizer against the derived struct", "statement": "Adding the fields of a struct to a fresh Sizer one by one returns exactly the offsets of the fields in the struct's Output; len() is then the end of the last field, and the size of Output is the least multiple of ALIGNMENT that is at least len(). The stronger belief that len() is the size of the struct is false: it can fall short by up to ALIGNMENT - 1 bytes.", "quantifier": "every derivable struct, both layouts, every target", "why_tests_cant": "all field lists; a hand-picked struct may happen to end on an aligned offset", "anchors": ["src/std140/sizer.rs: Sizer::add, Sizer::len", "src/std430/sizer.rs: Sizer::add, Sizer::len", "crevice-derive/src/layout.rs: emit"]}
{"id": "C62", "title": "Slices of layout values as bytes", "statement": "bytemuck::cast_slice of a slice of Outputs gives the same bytes as writing the values with a fresh Writer exactly when the size of Output is a multiple of its ALIGNMENT (or there are fewer than two values); a shader reading the bytes as an array sees the values exactly when the size is the array stride of the layout: derived structs and matrices always, scalars and 2- and 4-vectors in std430, 16-byte multiples in std140, 3-vectors never. Casting bytes back and from_std140 gives the values of that array.", "quantifier": "every type, every slice of values, both layouts, every target", "why_tests_cant": "all types and lengths; whether the cast is right depends on the type and only shows from the second element on", "anchors": ["crevice-derive/src/layout.rs: emit (Pod, Zeroable)", "src/std140/primitives.rs", "src/std430/primitives.rs", "src/std140/writer.rs: Writer::write", "src/std430/writer.rs: Writer::write", "src/lib.rs"]}
{"id": "C63", "title": "Buffers allocated in advance", "statement": "A buffer of x.std140_size() bytes is filled exactly by writing x to it, for any writable value including slices; with a larger buffer the rest is untouched, with a smaller one the write fails with WriteZero after filling the buffer with the beginning of the image. Sizer::len() lies between the sum of the sizes of the added types and that sum plus ALIGNMENT - 1 for each of them; the sum of the sizes itself is not enough.", "quantifier": "every writable value, every buffer length and contents, every list of types, both layouts, every target", "why_tests_cant": "all lengths and all values; the failing split may fall inside padding or inside a value", "anchors": ["src/std140/traits.rs: WriteStd140::std140_size", "src/std430/traits.rs: WriteStd430::std430_size", "src/std140/writer.rs: Writer::write", "src/std430/writer.rs: Writer::write", "src/std140/sizer.rs", "src/std430/sizer.rs"]}
{"id": "C64", "title": "Comparing bytes detects changes", "statement": "Two sequences of writes of values of the same types in the same order, all successful, send the same number of bytes to the sink, and exactly the same bytes if and only if all values are the same; for slices of one type of nonzero size this holds even when the lengths differ.", "quantifier": "every pair of histories of write, write_iter and write_std140 with values of the same types (nested slices and composites included), every lawful sink, both layouts, every target, also when len() wraps around", "why_tests_cant": "all pairs of values of all types; a counterexample would be a single pair of values", "anchors": ["src/std140/writer.rs: Writer", "src/std430/writer.rs: Writer", "src/std140/traits.rs: AsStd140", "src/std430/traits.rs: AsStd430"]}
{"id": "C65", "title": "Updating a written value in place", "statement": "Copying w.as_std140().as_bytes() over the bytes at the offset write returned for a value of the same type gives exactly the buffer that writing w in its place would have produced, and all offsets stay the same.", "quantifier": "every sequence of typed values, every position, every replacement value, both layouts, every target", "why_tests_cant": "all sequences, positions and values", "anchors": ["src/std140/writer.rs: Writer", "src/std430/writer.rs: Writer", "src/std140/traits.rs: AsStd140::as_std140", "src/std430/traits.rs: AsStd430::as_std430"]}
{"id": "C66", "title": "Order of fields", "statement": "Reordering the fields of a derived struct never changes its ALIGNMENT; the size is at least the sum of the sizes of the fields. Fields in order of decreasing ALIGNMENT whose sizes are multiples of their ALIGNMENT have no padding between them, and no other order of these fields gives a smaller struct. Without the condition on the sizes this is false: vec3, vec3, f32, f32 takes 48 bytes, vec3, f32, vec3, f32 takes 32.", "quantifier": "every field list and every permutation of it, both layouts, every target", "why_tests_cant": "all lists of fields, all permutations", "anchors": ["crevice-derive/src/layout.rs: emit"]}
{"id": "C67", "title": "Equality of std140 vectors", "statement": "== on std140 vectors compares component by component: integers and booleans by their words, floats by value (0.0 == -0.0, NaN unequal to everything). It is symmetric, transitive, and reflexive exactly on vectors without NaN. Equal vectors without a floating-point zero have the same bytes, and vectors with the same bytes and without NaN are equal; so on integer and boolean vectors == is equality of the bytes. It is not what a shader sees: boolean vectors with different nonzero words are unequal.", "quantifier": "every std140 vector type and every pair (triple) of values, bit pattern by bit pattern", "why_tests_cant": "all 2^32 or 2^64 patterns per component", "anchors": ["src/std140/primitives.rs: vectors! (derive(PartialEq))", "src/bool.rs: Bool (derive(PartialEq))"]}
{"id": "C68", "title": "A new Writer on a sink already in use", "statement": "If values are written with one Writer and more values with a new Writer on the same sink, the offsets of the second, plus the len() of the first, are the offsets one Writer for all the values would have returned if and only if the len() of the first is a multiple of the ALIGNMENT of every value written later; in that case the sink receives the same bytes, and the lengths add up.", "quantifier": "every pair of sequences of values of any types with the layout, every lawful sink and target", "why_tests_cant": "every sequence of types and every split point", "anchors": ["src/std140/writer.rs: Writer::new, Writer::write, Writer::len", "src/std430/writer.rs: Writer"]}
{"id": "C69", "title": "The calls a Writer makes on its sink", "statement": "On any sink (also one that breaks the contract of io::Write), writing values makes one write_all call with a single zero byte for every byte of padding and one with all the bytes of each value, in order; after the first call that fails there are no more calls, and its error is the result. Observing the calls changes neither offsets nor result.", "quantifier": "every sink implementation and state, every sequence of values, every point of failure", "why_tests_cant": "every sink, sequence and failing call", "anchors": ["src/std140/writer.rs: Writer::write_std140, Writer::write, Writer::write_iter", "src/std430/writer.rs: Writer"]}
{"id": "C70", "title": "The exact bytes of a value", "statement": "as_stdN().as_bytes() is completely determined by the GLSL value of the Rust value: it has the size of the GLSL type, holds the native-endian bytes of each scalar component at the place the GLSL layout rules prescribe (a bool as the word 0 or 1), and is zero everywhere else. Hence two Rust types for the same GLSL type (say, vectors of two math libraries) give the same bytes for values that mean the same GLSL value.", "quantifier": "every convertible type without raw layout values and without crevice::Bool, every value, both layouts, every target", "why_tests_cant": "every type, every value and every byte of the output", "anchors": ["src/std140/traits.rs: AsStd140::as_std140, Std140::as_bytes", "src/std430/traits.rs: AsStd430", "crevice-derive/src/layout.rs: emit", "src/util.rs: easy_impl!, minty_impl!", "src/bool.rs: Bool"]}
{"id": "C71", "title": "When std140 and std430 coincide", "statement": "The std140 bytes and the std430 bytes of a type are the same for every value if and only if the two layouts put every scalar component at the same place and have the same size. This is the case if every matrix column and every structure in the type has an std430 base alignment that is a multiple of 16; for a struct whose members satisfy that condition (no nested struct of scalars, no mat2) the std140 bytes are the std430 bytes followed by fewer than 16 zero bytes.", "quantifier": "every convertible type without raw layout values and without crevice::Bool, every value, every target", "why_tests_cant": "every type and every value (the converse needs a distinguishing value for every type where the layouts differ)", "anchors": ["src/std140/traits.rs: AsStd140", "src/std430/traits.rs: AsStd430", "src/std140/primitives.rs: matrices!", "src/std430/primitives.rs: matrices!", "crevice-derive/src/layout.rs: emit"]}
{"id": "C72", "title": "Rust values and GLSL values correspond one to one", "statement": "Every Rust value stands for a value of the GLSL type, and every value of the GLSL type is stood for by exactly one Rust value. Hence a byte string is as_stdN().as_bytes() of some value if and only if it is the image of some GLSL value under the layout rules, every GLSL value has exactly one image, and whatever a shader stores into a block is read by the host as the one Rust value with that meaning, which written back is read by the shader as the same value.", "quantifier": "every convertible type without raw layout values and without crevice::Bool, every GLSL value of the type, both layouts, every target, every buffer and position", "why_tests_cant": "every type and every one of the astronomically many values of the type; surjectivity quantifies over all shader outputs", "anchors": ["src/std140/traits.rs: AsStd140::as_std140, AsStd140::from_std140", "src/std430/traits.rs: AsStd430", "crevice-derive/src/layout.rs: emit", "src/util.rs: easy_impl!, minty_impl!", "src/bool.rs: Bool"]}
{"id": "C73", "title": "The exact bytes of a block written member by member", "statement": "When the members of a block (single values and slices, under the conditions of C39) are written one after the other through a fresh Writer, the bytes delivered are exactly the GLSL image of the whole block: every scalar component at its place, zero elsewhere; only zero bytes at the very end of the block may be missing, exactly those that pad its size to a multiple of its base alignment.", "quantifier": "every sequence of members of convertible types without raw layout values and without crevice::Bool, every value, every lawful sink, both layouts, every target", "why_tests_cant": "every sequence of members, every value and every byte", "anchors": ["src/std140/writer.rs: Writer::write", "src/std430/writer.rs: Writer::write", "src/std140/traits.rs: WriteStd140", "src/std430/traits.rs: WriteStd430", "src/internal.rs: align_offset"]}
{"id": "C74", "title": "If the generated shader text compiles, it is right, from text to bytes", "statement": "Take structs deriving GlslStruct and AsStd140/AsStd430, in any order, together with every struct their fields use, and concatenate their glsl_definition texts. Whenever that text is accepted (parsed, no redefinition, every type declared before use), the NAME of each struct denotes exactly the GLSL type whose layout crevice uses: same size, same alignment, a variable of that type reads from the bytes of as_stdN() the value the Rust value stands for, and whatever it holds is what from_stdN reads.", "quantifier": "every list of structs with every field types and names, in every order; every value, buffer and position, both layouts, every target", "why_tests_cant": "every program text and every type and value; the compiler accepting the text is the only hypothesis about names and order", "anchors": ["src/glsl.rs: GlslStruct::glsl_definition, Glsl::NAME", "crevice-derive/src/glsl.rs: emit", "src/std140/traits.rs: AsStd140", "src/std430/traits.rs: AsStd430", "crevice-derive/src/layout.rs: emit"]}
{"id": "C75", "title": "Converted values are interchangeable with the originals; layouts do not mix", "statement": "A value in which some parts (the whole value, or fields at any depth) have already been converted with as_stdN(), the field types being the Output types, can be used in place of the original: it has the same Output type, the same bytes, the same offsets from a Sizer, the same effect on any Writer and stands for the same GLSL value; writer.write(&x) and writer.write_stdN(&x.as_stdN()) are the same operation. An Output of one layout is accepted where the other layout is required if and only if it is a scalar.", "quantifier": "every type and value, every choice of already converted parts at any depth, both layouts, every sink and Writer state, every target", "why_tests_cant": "every choice of converted parts of every type tree, every value and every sink", "anchors": ["src/std140/traits.rs: impl AsStd140 for T: Std140", "src/std430/traits.rs: impl AsStd430 for T: Std430", "src/std140/writer.rs: Writer::write_std140", "src/std430/writer.rs: Writer::write_std430", "src/std140/sizer.rs: Sizer::add"]}
{"id": "C76", "title": "Writing at a position of an existing buffer through a Cursor", "statement": "A Writer on a Cursor<Vec<u8>> at position p behaves like a Writer on an empty Vec: every operation of any history returns the same, len() is the same, the position advances by the number of bytes written, and the buffer is the old one overwritten at p with the bytes the Vec would hold (extended if needed, zeros between the old end and p), every other byte unchanged. A Writer on a Cursor<&mut [u8]> behaves like a Writer on the part of the slice from p on, failures included.", "quantifier": "every history of operations, every position, every buffer, both layouts, every target", "why_tests_cant": "every history, position and buffer, including failing writes", "anchors": ["src/std140/writer.rs: Writer::write, Writer::write_iter, Writer::write_std140", "src/std430/writer.rs: Writer::write, Writer::write_iter, Writer::write_std430"]}
{"id": "C77", "title": "Writing through a BufWriter", "statement": "Through a BufWriter of any capacity, on a sink that makes short writes, is interrupted or fails at any point, a Writer behaves as on any lawful sink; after successful operations and a successful flush the sink behind has received exactly the expected bytes and the buffer is empty; at any moment, errors included, the sink behind has received a prefix of them. Without a flush, successful writes need not have reached the sink.", "quantifier": "every capacity, every behaviour of the sink behind, every history of operations, both layouts, every target", "why_tests_cant": "every capacity, every sequence of short writes, interruptions and failures", "anchors": ["src/std140/writer.rs: Writer::write, Writer::write_iter, Writer::write_std140", "src/std430/writer.rs: Writer::write, Writer::write_iter, Writer::write_std430"]}
{"id": "C78", "title": "Row-major shaders see transposed matrices, and nothing else changes", "statement": "If a shader declares its block layout(row_major), every alignment, size and member offset is the same as in a column-major block, and it reads every value written by crevice with exactly the matrices in it (at any depth) transposed and everything else unchanged; it reads the value itself exactly if every matrix in it is symmetric. Likewise what the host reads from a buffer is the transpose of what such a shader reads from the same bytes.", "quantifier": "every type and value, every buffer and position, both layouts, every target", "why_tests_cant": "every type tree and every value of its matrices", "anchors": ["src/std140/primitives.rs: matrices!", "src/std430/primitives.rs: matrices!", "src/util.rs: easy_impl!", "crevice-derive/src/layout.rs: emit"]}
{"id": "C79", "title": "length() of a runtime-sized array", "statement": "When members are written one after the other through a fresh Writer, the last of them a slice standing for the runtime-sized array of a shader storage block, and exactly the delivered bytes are bound as the buffer, the shader's length() of the array is the number of elements written, except that it is one less for elements that are three-component vectors. With more bytes appended, length() is the number written if and only if the appended bytes are at least the array stride minus the element size and fewer than one more stride; then the shader sees exactly the elements written. Extending the buffer to a multiple of the alignment of the element type always gives the right length; extending it to the GLSL size of the block does not.", "quantifier": "every member list ending in a slice (under the conditions of C39), every value, every lawful sink, both layouts, every target, every padding", "why_tests_cant": "every header length and element count changes the division", "anchors": ["src/std140/writer.rs: Writer::write", "src/std430/writer.rs: Writer::write", "src/std140/traits.rs: WriteStd140 for [T]", "src/std430/traits.rs: WriteStd430 for [T]"]}
{"id": "C80", "title": "Other declarations of the same bytes", "statement": "Where a matrix was written, a shader that declares the array of its column vectors sees the columns, and both declarations have the same size and alignment. Where a vector was written, component k is seen by a scalar declared k scalar sizes further, and in std430 by an array of scalars (not in std140). A derived struct with a single field is the bytes of the field followed by zero bytes up to a multiple of its ALIGNMENT, which is the ALIGNMENT of the field but at least 16 in std140; a shader may declare the field in its place.", "quantifier": "every matrix, vector and one-field struct type and value, every buffer and position, both layouts, every target", "why_tests_cant": "every value and position", "anchors": ["src/std140/primitives.rs: vectors!, matrices!", "src/std430/primitives.rs: vectors!, matrices!", "crevice-derive/src/layout.rs: emit"]}
{"id": "C81", "title": "Layouts are valid in Vulkan", "statement": "The member offsets and matrix strides of a derived AsStd140 type, read off the Rust type, are a valid explicit layout of a Vulkan uniform buffer, and those of a derived AsStd430 (or AsStd140) type of a storage buffer: offsets and strides are multiples of the alignments Vulkan requires, no vector improperly straddles, no two members overlap and none lies in the padding after a structure, array or matrix. A shader whose block carries exactly these Offset and MatrixStride decorations reads the value that was written. The offsets returned by a fresh Writer for a sequence of members, with its slices as arrays, are likewise valid Offset decorations (under the conditions of C39).", "quantifier": "every type tree that stands for a GLSL type, every value, every member list with non-empty slices, every storage class, every target", "why_tests_cant": "every type and value", "anchors": ["crevice-derive/src/layout.rs: emit", "src/std140/writer.rs: Writer", "src/std430/writer.rs: Writer", "src/std140/primitives.rs: vectors!, matrices!"]}
{"id": "C82", "title": "Retrying and ignoring I/O errors", "statement": "If every value is written in a loop until its write succeeds, the offsets returned and len() are those of a run without errors, whatever the failures; each value is in the sink at its offset plus a shift, the shifts never decrease and are at most the number of bytes delivered minus len(). The bytes are those of the run without errors if and only if the number of bytes delivered equals len() at the end. The same holds if failed values are skipped instead, for the values that were written; these do not overlap, are at multiples of their alignments, and none is later than without errors. On an all-or-nothing sink retrying is always right if no padding is needed; with padding it is not, because the padding is delivered byte by byte and only counted when complete. Retrying a slice writes its first elements again.", "quantifier": "every sequence of values, every sink obeying the io::Write contract, every number and position of failures, every target", "why_tests_cant": "every failure history, of any length", "anchors": ["src/std140/writer.rs: Writer::write_std140, len", "src/std430/writer.rs: Writer::write_std430, len", "src/std140/traits.rs: impl WriteStd140 for [T]"]}
{"id": "C83", "title": "How large a value can get", "statement": "The size of the std140 or std430 version of a type lies between the bytes of its scalar components taken together and ALIGNMENT times the number of scalar components; both bounds are reached. The len() of a Sizer (hence of a Writer) after any sequence of types lies between the sum of the component bytes and the largest ALIGNMENT times the total number of components. So a buffer of that size always suffices, and the padding never costs more than a factor.", "quantifier": "every type tree that stands for a GLSL type, every sequence of such types, both layouts, every target", "why_tests_cant": "ranges over all types and sequences", "anchors": ["crevice-derive/src/layout.rs: emit", "src/std140/sizer.rs: Sizer::add", "src/std430/sizer.rs: Sizer::add", "src/std140/primitives.rs: vectors!, matrices!"]}
{"id": "C84", "title": "WGSL declarations of the same types", "statement": "A type whose GLSL counterpart contains neither bool nor double has a WGSL declaration with the same members. On a little-endian host, that declaration without attributes has exactly the size, the alignment and the member offsets of the std430 version of the type, is valid in a storage buffer, and shader and host read the same values in both directions; the same holds for a block written by a std430 Writer, with slices as arrays. For std140, if no matrix with two-component columns occurs, the declaration with @align(16) and @size(std140 size) on every member that is a structure is valid in a uniform buffer, fits in the std140 size, has the std140 member offsets, and values are read right in both directions. The declaration without attributes reads every std140 value right if and only if WGSL accepts it for a uniform buffer. Refuted: that std140 mat2 can be read by some WGSL matrix; that attributes are never needed; that a big-endian host works.", "quantifier": "every type tree that stands for a GLSL type, every value, every buffer, every WGSL declaration of the type, every block and lawful sink, every little-endian target", "why_tests_cant": "ranges over all types, values and buffers", "anchors": ["crevice-derive/src/layout.rs: emit", "src/std140/primitives.rs: vectors!, matrices!", "src/std430/primitives.rs: vectors!, matrices!", "src/std430/writer.rs: Writer::write", "src/std140/dynamic_uniform.rs: DynamicUniform (WebGPU)", "crevice-tests/src/gpu.rs"]}
{"id": "C85", "title": "Hand-written AsStd140/AsStd430 implementations compose", "statement": "AsStdN can be implemented by hand for a user's own type with any Output and any (possibly lossy or panicking) conversions, and such types can be fields of derived structs at any depth and of DynamicUniform. The Output type, hence size, alignment and offsets, depends on the user's code only through the Output types it names. as_stdN(), the bytes and the effect of writer.write(&x) on any Writer are those of the value in which every part of a user type has been replaced by what the user's as_stdN returns for it; the bytes are fully initialised and as many as the size of the type; a shader reads the replaced values. The conversion panics if and only if one of the user's conversions panics, and then the Writer has not been touched. Slices and iterators of such values are written as the replaced values; if the conversion of an item panics, the items before it have been written as usual. from_stdN(x.as_stdN()) == x if and only if the user's two conversions round-trip on every part of x that has a user type; a value written by a shader comes back as the user's from_stdN of its parts.", "quantifier": "every tree of derived structs, crate types and user types, every user implementation (conversions arbitrary partial functions of the value), every value, both layouts, every sink and Writer state, every target", "why_tests_cant": "ranges over all user code and all type trees", "anchors": ["src/std140/traits.rs: AsStd140, WriteStd140 (blanket impl)", "src/std430/traits.rs: AsStd430, WriteStd430 (blanket impl)", "crevice-derive/src/layout.rs: emit", "src/std140/dynamic_uniform.rs: DynamicUniform", "src/std140/writer.rs: Writer::write"]}
{"id": "C86", "title": "Hand-written layout types (unsafe impl Std140/Std430) compose", "statement": "Std140/Std430 are public unsafe traits: a user may implement them for a Pod type with an ALIGNMENT that is a power of two and a multiple of Rust's alignment of the type. Every type built from such types, the crate's types, DynamicUniform and the derive macros again has a power-of-two ALIGNMENT that is a multiple of Rust's alignment (0 only if empty), and as_bytes is a one-to-one correspondence between its values and the byte strings of its size. A derived struct over such fields: ALIGNMENT is the largest of the fields' (at least 16 in std140), every field is at the least suitable offset after the previous one, the size is the end rounded up to ALIGNMENT, no compiler padding; parts at any nesting depth are inside the struct at multiples of their own ALIGNMENT. The derived as_stdN puts every field's bytes at the field's offset and zeros elsewhere and from_stdN returns exactly the fields' values. Sizer::add and Writer::write/write_stdN place such values at the least multiple of ALIGNMENT, as for the crate's own types (the theorems on Writer histories, C03-C13, C47, C48, C64, range over them too). Both promises are needed: with ALIGNMENT 12 a nested member ends up at an offset that is not a multiple of 12, and with an ALIGNMENT below Rust's a derived struct has uninitialised bytes.", "quantifier": "every layout type built from hand-written ones (any sizes, any power-of-two ALIGNMENT that fits usize), every value, both layouts, every sink, Writer and Sizer state, every target", "why_tests_cant": "ranges over all user implementations and all type trees", "anchors": ["src/std140/traits.rs: Std140", "src/std430/traits.rs: Std430", "crevice-derive/src/layout.rs: emit", "src/std140/dynamic_uniform.rs: DynamicUniformStd140", "src/std140/sizer.rs: Sizer::add", "src/std140/writer.rs: Writer::write_std140"]}
{"id": "C87", "title": "Panics of sinks, iterators and implementations leave the Writer usable and known", "statement": "If the io::Write sink, the iterator given to write_iter or a user's WriteStdN implementation panics and the panic is caught, the Writer's state is known. One write call: the sink received a prefix of the zero padding followed by the value's bytes; if the call panicked or returned Err, either len() is unchanged and at most the padding was received, or len() is the aligned position of the value and at least the padding was received; the failing sink call was the last one made, and a call only panics if the sink did (or usize overflowed). Whatever user code does, panics caught or not, bytes already delivered are never changed, and if all calls succeed the image is that of C48. Code that uses ? and catches nothing leaves a prefix of the fault-free bytes. After any history of writes with errors and panics caught and ignored, every successful value is in the output at its offset plus a shift, shifts never decrease, the output is len() plus the last shift long, and shift 0 is equivalent to the exact image; the offsets of successful values are aligned, do not overlap and are never later than without failures. write_iter on an iterator that panics leaves what writing the items one by one leaves, and makes no further next() call after a failing item.", "quantifier": "every sink that may fail or panic at any call after taking any prefix, every client program that may catch panics, every history, every iterator, both layouts, every target", "why_tests_cant": "ranges over all panic points, sinks and client programs", "anchors": ["src/std140/writer.rs: Writer::write_std140, write_iter", "src/std430/writer.rs: Writer::write_std430, write_iter", "src/std140/traits.rs: WriteStd140", "src/std430/traits.rs: WriteStd430"]}
{"id": "C88", "title": "Implementations with hand-written Output types, at any depth", "statement": "A type whose parts implement AsStdN by hand, each with any Output that keeps the promises of StdN (a hand-written layout type included), nested through derived structs and DynamicUniform: its Output is again a layout type. as_stdN().as_bytes() has the bytes of every part (part.as_stdN().as_bytes()) at the offset of the part, a multiple of the part's own ALIGNMENT, and zeros everywhere else; or some part's conversion panics, and then the whole panics, and Writer::write panics without touching the writer. from_stdN undoes as_stdN exactly when the implementations do so on the parts. from_stdN of any bytes, padding written by a shader included, gives every part from_stdN of the bytes at its offset. The types of C85 are a special case: same Output, conversions and writes.", "quantifier": "every user type and implementation (functions arbitrary, panics included), every hand-written layout type that keeps its promises, every nesting, every value, every buffer, both layouts, every target", "why_tests_cant": "ranges over all user implementations, all layout types and all nestings", "anchors": ["src/std140/traits.rs: AsStd140", "src/std430/traits.rs: AsStd430", "src/std140/dynamic_uniform.rs: DynamicUniform", "crevice-derive/src/layout.rs: emit"]}
{"id": "C89", "title": "The GPU round-trip test harness", "statement": "The shader text built by test_round_trip_struct (str::replace on the template) reads, as GLSL, as the declaration of the struct, an input and an output block with the layout asked for, and a main that copies every field; it compiles exactly when all names are GLSL identifiers, the struct's name is none the harness uses itself (INPUT, OUTPUT, in_data, out_data, main), and no field is itself a struct (nested definitions are not included). On any device that does what the shader says, test_round_trip_struct passes for a value exactly when the shader compiles and the value equals itself under its PartialEq (so not with a NaN); test_round_trip_primitive, exactly when the type is not a struct and the value equals itself. On an arbitrary device, working or not, the tests pass exactly when, for both layouts, the device returns for the shader and the bytes of the value a buffer of the right size whose GLSL value is that of a Rust value equal to the given one. A passing test does not show that host and shader agree on where each member is: a shader that declares two members of the same type in the other order passes as well.", "quantifier": "every struct and type with a GLSL name, every value, both layouts, every behaviour of the device the shader text allows (any previous contents of the output buffer, any store), every PartialEq, every target", "why_tests_cant": "ranges over all structs, values and device behaviours; the tests run a few values on one device", "anchors": ["crevice-tests/src/gpu.rs: test_round_trip_struct, test_round_trip_primitive, glsl_shader_for_struct, struct_copy, BASE_SHADER", "src/glsl.rs: GlslStruct"]}
{"id": "C90", "title": "Layout assertions say what GLSL says", "statement": "assert_std140! / assert_std430! compiles exactly when the type is not called Target, the literals fit both usize and i32, the type has a layout version and every listed field is one of its fields. An assertion that compiles panics exactly when its size, alignment or one of its offsets is not that of Output; for a type that is a GLSL type this is: not the size, base alignment or member offset of the GLSL rules. Without a panic nothing is printed; with one, the printed text, read line by line, is the list of exactly the wrong numbers, in order, each with the asserted and the right value, and the panic names the struct. Text and verdict are the same on every target on which the assertion compiles. The types of the fields are not checked: structs with the same offsets pass the same assertions.", "quantifier": "every type with a layout version, every name, every list of asserted numbers and fields, both layouts, every target", "why_tests_cant": "ranges over all types and all assertions, passing and failing; the tests contain only passing assertions, on one target", "anchors": ["crevice-tests/src/util.rs: assert_std140, assert_std430"]}
{"id": "C91", "title": "Which as_stdN the derive calls", "statement": "The derived as_stdN calls self.f.as_stdN() as a method, while from_stdN is called by its path. So what is called is: a method of that name that takes the value before one that takes a reference, and, at the same receiver, an inherent one before those of traits in scope; without a first one, or without the trait's import and any other such method, the derive does not compile. It compiles exactly when, for every field, the method called returns the Output of the field's AsStdN and does not take the value of a type that is not Copy. Then the bytes at every field's offset are those of what the called method returns, the rest zeros, or a called method panics. With the trait imported and no other method of that name, the conversions are the trait's. The round trip holds exactly when the trait's from_stdN undoes the methods called; it can fail although every impl of AsStdN round-trips.", "quantifier": "every derived struct, every set of inherent methods and methods of other traits, imported trait or not, both layouts, every target, every value", "why_tests_cant": "ranges over all user types and methods visible at the derive; the tests only derive for field types without other methods", "anchors": ["crevice-derive/src/layout.rs: EmitOptions::emit (self.#field_name.#as_trait_method())", "src/std140/traits.rs: AsStd140", "src/std430/traits.rs: AsStd430"]}
{"id": "C92", "title": "The tokens the layout derives generate, read as Rust", "statement": "The layout derives generate code for exactly the structs with named fields. For those without generic parameters, whatever the visibility, the where clause and the identifiers (also those written with r#) are, and for any field types with balanced <> whose top level has no `as`: the generated token stream parses completely as Rust items; those are the padding functions, one #[repr(C)] #[derive(Debug, Clone, Copy)] struct, and the impls of Zeroable, Pod, StdN, AsStdN and as_bytes, each for the right type, with exactly the expressions, fields and conversions from which every other property of this list is proved. What debug_definitions prints declares the same struct and the same functions.", "quantifier": "every struct, every list of fields, every token sequence for a field's type, every visibility and where clause, both layouts, every meaning of the field types", "why_tests_cant": "ranges over all structs and all ways to write their types; the tests compile a few", "anchors": ["crevice-derive/src/layout.rs: EmitOptions::emit", "crevice-derive/src/layout.rs: debug_definitions", "crevice-derive/src/lib.rs: derive_as_std140, derive_as_std430"]}
{"id": "C93", "title": "The tokens derive(GlslStruct) generates, read as Rust", "statement": "derive(GlslStruct) generates code for exactly the structs with named fields. Whatever the generic parameters, the where clause, the identifiers (also those written with r#) and the tokens of the field types (with balanced <> and no `as` at top level) are: the generated tokens are exactly one unsafe impl of Glsl and one of GlslStruct, both with the struct's own generic parameters, arguments and where clause; NAME is the text of the struct's identifier, and FIELDS has one entry per field, in order, with the Glsl::NAME of the field's type and the text of the field's identifier.", "quantifier": "every struct, generic or not, every list of fields, every token sequence for a field's type, every where clause, every meaning of the types", "why_tests_cant": "ranges over all structs and all ways to write their types; the tests compile a few", "anchors": ["crevice-derive/src/glsl.rs: emit", "crevice-derive/src/lib.rs: derive_glsl_struct"]}
{"id": "C94", "title": "The built-in layout types, read as Rust from what the macros expand to", "statement": "Whatever a row of vectors! or matrices! is, its expansion, read as Rust, is one repr(C) Copy struct with the row's name and fields in order, with unsafe impls of Zeroable, Pod, Std140 or Std430 and Glsl for that struct, whose ALIGNMENT is the row's literal and whose NAME is the row's GLSL name. What the two invocations of a module expand to defines 21 types; every name means the type, with its fields and alignment, and the GLSL name from which every other property of this list starts, and any other name means nothing.", "quantifier": "every row of both macros, every doc comment, every name, both layouts", "why_tests_cant": "ranges over every possible row and every name; the tests use a few of the types", "anchors": ["src/std140/primitives.rs: vectors!, matrices!", "src/std430/primitives.rs: vectors!, matrices!"]}
{"id": "C95", "title": "The impls for math libraries' types, read as Rust from what easy_impl! expands to", "statement": "Whatever a row of easy_impl! is, its expansion, read as Rust, is exactly the impls of AsStd140, AsStd430 and Glsl for the row's type. In both layouts Output, and the type that as_stdN builds, is the row's layout type from the same layout's module; every listed field, in order and no other, is converted to and from the field of the same name; what is not listed is zeroed; the GLSL name is that of the row's layout type.", "quantifier": "every row: every type, every layout type, every list of fields", "why_tests_cant": "ranges over every possible row; the tests use a few of the types", "anchors": ["src/util.rs: easy_impl!"]}
{"id": "C96", "title": "The impls that go through mint, read as Rust from what minty_impl! expands to", "statement": "Whatever a row of minty_impl! is, its expansion, read as Rust, is exactly the impls of AsStd140, AsStd430 and Glsl for the row's type. In both layouts Output is that of the row's mint type; as_stdN turns a copy of the value into that type and calls its as_stdN; from_stdN calls that type's from_stdN and turns the result into the row's type; the GLSL name is that type's.", "quantifier": "every row: every type, every mint type (with balanced <>, no `as` at top level and no `=`)", "why_tests_cant": "ranges over every possible row; the tests use a few of the types", "anchors": ["src/util.rs: minty_impl!"]}
