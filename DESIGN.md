# Formal model of LPGhatguy/crevice in Rocq (Coq 8.16.1)

All Coq sources are in `rocq/theories` (logical name `Verif`), Coq standard library only.

## 1. Architecture

| file | contents |
|---|---|
| `Rust.v` | platform model: target (usize width, endianness, primitive alignments, overflow checks), usize `+`, primitive encodings, Rust memory layout (`#[repr(C)]`, `#[repr(transparent)]`, arrays), `bytes_of` with explicit uninitialised bytes, `from_bytes`, `Zeroable::zeroed` |
| `Internal.v` | `src/internal.rs`: `align_offset`, `max`, `max_arr` |
| `Prims.v` | `src/std140/primitives.rs`, `src/std430/primitives.rs`: the `vectors!` / `matrices!` tables, trait constant `ALIGNMENT` |
| `Derive.v` | `crevice-derive/src/layout.rs`: `emit` as a function from derive input to generated items; const evaluation of the generated `const fn`s; what rustc makes of the generated struct |
| `Host.v` | `src/bool.rs`, `src/util.rs` (`easy_impl!`, `minty_impl!`), `src/std140/dynamic_uniform.rs`, the blanket impl, derived `as_std*` / `from_std*`; universe `hty` of host types |
| `Rows.v` | `src/imp/imp_{mint,cgmath,glam,nalgebra}.rs` tables |
| `Buffer.v` | `Sizer`, `Writer`, `WriteStd*`, `io::Write` sinks (Vec, `io::sink`, `&mut [u8]`, scripted short/interrupted/failing) |
| `Client.v` | user code driving a `Writer`: custom `WriteStd*` implementations (trees of calls), `write_iter` on arbitrary (lazy, infinite, non-fused) iterators |
| `GlslGen.v` | `src/glsl.rs`, `crevice-derive/src/glsl.rs` |
| `Cost.v` | number of padding-function calls const evaluation makes |
| `DebugMetrics.v` | the `debug-methods` code of `crevice-derive/src/layout.rs` |
| `SpecGlsl.v` | SPECIFICATION, independent of the model: GLSL types, std140/std430 rules (OpenGL 4.6 section 7.6.2.2), how a shader reads a value from a buffer, which bytes are padding |
| `SpecHost.v` | SPECIFICATION: the GLSL type and value a host type and value stand for |
| `SpecTypes.v` | SPECIFICATION: offsets by path of names, gap-free placement, the list of supported math types |
| `SpecBuf.v` | SPECIFICATION: least aligned offset, contract of `io::Write`, images |
| `SpecClient.v` | SPECIFICATION: what a user implementation wrote, error propagation, pulling from an iterator |
| `SpecEvolve.v` | SPECIFICATION: renaming, alternative placements |
| `SpecUse.v` | SPECIFICATION: copying into a buffer, the zero value |
| `SpecGpu.v` | SPECIFICATION: shader stores, Rust assignments, memberwise copies |
| `Cast.v` | bytemuck's slice casts of layout values (user side) |
| `SpecChange.v` | SPECIFICATION: histories with the same types, decreasing alignments |
| `Equality.v`, `SpecEq.v` | model of derive(PartialEq) on std140 vectors; SPECIFICATION: when components are equal |
| `SpecCalls.v` | SPECIFICATION: a sink that records the calls, and the calls expected for given placements |
| `SpecBytes.v` | SPECIFICATION: the bytes a GLSL value should have (positions and encodings of its scalar components) |
| `SpecValues.v` | SPECIFICATION: the values of a GLSL type |
| `SpecShader.v` | SPECIFICATION: the structs of a shader |
| `SpecConv.v` | SPECIFICATION: values some parts of which are already converted |
| `Sinks.v`, `SpecSinks.v` | model of std's `Cursor` and `BufWriter` (user side); SPECIFICATION: overwriting part of a buffer |
| `SpecRowMajor.v` | SPECIFICATION: `layout(row_major)` blocks (rule 7), transposed values |
| `SpecRuntime.v` | SPECIFICATION: `length()` of runtime-sized arrays |
| `SpecMath.v` | SPECIFICATION: values of the math types |
| `SpecVulkan.v` | Vulkan explicit layouts: Offset/MatrixStride/ArrayStride, alignment and straddling rules, what a decorated shader reads; decorations of a Rust type |
| `SpecDebug.v`, `SpecFields.v` | reader of the text of debug_metrics (C41); GLSL type names of fields (C29) |
| `SpecNumeral.v` | decimal numerals (C34, C41) |
| `SpecRetry.v` | retry loops, shifted placements, all-or-nothing sinks |
| `SpecSize.v` | number and total size of the scalar components of a GLSL type |
| `SpecWgsl.v` | SPECIFICATION: WGSL alignment, size, offsets, validity per address space, reads |
| `Custom.v`, `SpecCustom.v` | hand-written `AsStdN` implementations inside derived structs; SPECIFICATION: values with the user parts replaced |
| `SpecLayout.v` | SPECIFICATION: what a hand-written `unsafe impl StdN` promises, types built from such types, their parts |
| `Unwind.v` | sinks, iterators and user code that may panic, and user code that catches panics |
| `SpecUnwind.v` | SPECIFICATION: contract of a sink that may panic, items written one by one |
| `CustomAny.v` | user implementations of AsStdN whose Output is a hand-written layout type, at any depth |
| `SpecAny.v` | SPECIFICATION: where the parts of such a value are, and reading them back |
| `SpecProgram.v` | SPECIFICATION: a fragment of GLSL compute shaders: text, static checks, execution |
| `Harness.v` | crevice-tests/src/gpu.rs: shader text and round-trip tests |
| `SpecHarness.v` | SPECIFICATION: the intended shader, devices that behave |
| `Asserts.v` | crevice-tests/src/util.rs: assert_std140!, assert_std430! |
| `SpecAsserts.v` | SPECIFICATION: wrong numbers of an assertion by the GLSL rules; reader of reports |
| `Methods.v` | crevice-derive/src/layout.rs: the method calls `self.f.as_stdN()`; rustc's method lookup |
| `SpecMethods.v` | SPECIFICATION: the method preferred to all others |
| `Tokens.v` | crevice-derive/src/layout.rs: `emit`, token by token, and `debug_definitions` |
| `SpecTokens.v` | SPECIFICATION: a reader of the Rust items the derives generate |
| `GlslTokens.v` | crevice-derive/src/glsl.rs: `emit`, token by token |
| `SpecGlslTokens.v` | SPECIFICATION: a reader of impls of Glsl and GlslStruct |
| `PrimTokens.v` | src/std{140,430}/primitives.rs: the bodies of `vectors!` and `matrices!`, token by token |
| `SpecPrimTokens.v` | SPECIFICATION: a reader of the built-in types |
| `EasyTokens.v` | src/util.rs: the body of `easy_impl!`, token by token |
| `SpecEasyTokens.v` | SPECIFICATION: a reader of the impls for a library's type |
| `MintyTokens.v` | src/util.rs: the body of `minty_impl!`, token by token |
| `SpecMintyTokens.v` | SPECIFICATION: a reader of impls that go through another type |
| `SpecBlock.v` | SPECIFICATION: GLSL blocks written member by member, with slices |
| `SpecText.v` | SPECIFICATION: GLSL lexer/parser for struct declarations, keywords, built-in type names, name resolution |
| `Samples.v` | concrete types and values (README, crevice-tests) used by the `Example`s |
| `Conformance.v` | the crate's own assertions (crevice-tests, tests/test.rs, doc examples) evaluated on the model |
| `*Facts.v`, `Arith.v` | lemmas |
| `Proofs_*.v` | the proofs, each theorem with suffix `_proof` |
| `Properties_*.v` | property theorems only, each closed by `exact`, with `Print Assumptions` and non-vacuity `Example`s; generated from `Proofs_*.v` by `tools/genprops.py` |

`MANIFEST.json` is generated by `tools/genmanifest.py`. Theorems named `..._refuted` are proofs
that a natural or documented reading of a property is false of the code; the property statement
in `properties.jsonl` is the exact (true) version, and its other theorems prove it.

`std140` and `std430` are textual copies of each other in the repo (checked with `diff`
after renaming: `sizer.rs` and `traits.rs` are identical up to comments, `writer.rs`
differs only by the deprecated `write_slice`), so one definition parametrised by
`lay := L140 | L430` models both; every such definition cites both files. The tables
(`primitives.rs`) are modelled separately for each.

## 2. Modelling decisions

* **usize** is `N` with explicit reduction: additions go through `uadd`, which panics
  (overflow checks) or wraps modulo `2^bits`. In const evaluation (`pad` functions) overflow
  is a compile error.
* **Bytes** are `Coq.Init.Byte.byte`; memory cells are `option byte`, `None` = uninitialised
  (compiler-inserted padding). `as_bytes` returns `None` if any byte is uninitialised; that it
  never does is a theorem, not an assumption.
* **Primitives** are bit patterns (`N` below `2^width`), i.e. f32/f64 are compared bit-for-bit.
* **Targets**: alignment of 4-byte and 8-byte primitives are parameters (any power of two up to
  their size: x86-64 has 4/8, i686 has 4/4, AVR has 1/1), endianness is a parameter, usize is
  any width of at least 16 bits.
* **derive**: `emit` produces syntax (names, field list, const expressions); `ceval` interprets
  the const expressions by name lookup with fuel; rustc acceptance (distinct field names,
  associated type generics, type size below `isize::MAX`, const-eval overflow) is explicit.
* **I/O**: theorems quantify over any sink satisfying the `write_all` contract
  (`Ok` = all bytes appended, `Err` = some prefix appended); `Vec`, `io::sink`, `&mut [u8]` and a
  scripted sink running std's `write_all` loop are proved to satisfy it.
* **Hand-written layout types** (`unsafe impl StdN`): values `WStd t s` of any `layout_type` are
  admitted by the theorems on Writer, Sizer, slices, iterators, histories and sinks (C03-C13, C47,
  C48, C64, ...), and as fields of derived structs by C86.
* **Not modelled**: `repr(align)` on hand-written layout types; rustc itself (trait resolution beyond the rules above), `syn` parsing,
  generic parameters at the level of tokens (`Tokens.v` treats `::`, `->`, `..` as single tokens; at the level of syntax they are in C34), the white space of `stringify!`; methods named `as_std140`/`as_std430` that the call `self.f.as_stdN()` finds only through `Deref` or `&mut`; derived `Debug` formatting of generated structs; the internals of math crates
  (their conversions to mint are universally quantified functions); naga and wgpu, called by
  `crevice-tests/src/gpu.rs` (the harness itself is modelled in `Harness.v`, C89, with naga/wgpu an arbitrary function constrained only by
  the GLSL specifications `SpecGlsl.v`, `SpecProgram.v`).

## 3. Trusted base

Coq's kernel; the reading of the Rust sources recorded in the comments; the reading of the GLSL
layout rules in `SpecGlsl.v`; the Rust reference's `repr(C)` algorithm in `Rust.v`.
No axioms are declared; the `Print Assumptions` output of each theorem is listed in section 5
(all are closed). The seven `Coq.ssr.ssrunder.Under_rel.*` names a scan of the loaded
libraries shows are fields of a module type in Coq's own library, loaded by the `lia`
support files; no theorem depends on them.

## 4. Plan per property

C01 `align_offset` characterised as least multiple; lift to `Sizer::add`.
C02 induction over the list of values; both steps compute the same offset.
C03-C05 invariant over the list of operations relating delivered bytes to the offset.
C06 equality of state transformers for all sinks (also failing ones).
C07, C08 corollaries of the byte length of encodings and of C05.
C09, C10 failing sinks: prefix of the fault-free image; exact characterisation of `len()` after an error.
C11 capacity sink instance.
C12, C13 usize arithmetic vs. unbounded `N`.
C14 all field offsets of the repr(C) layout equal the running sum, by induction over type trees.
C15-C17 offsets/size/alignment equal the spec functions, by induction over type trees.
C18 fuel bound for const evaluation.
C19 padding mask from the spec; bytes outside components are zero.
C20-C24 round trips, bijection, GPU reads, by induction over type trees.
C25 finite tables: exhaustive computation over rows, all targets; component values by a shape check over the rows and C23.
C26, C27 all words. C28 DynamicUniform. C29 parse of generated text. C30 name resolution.
C31 power of two, with the empty std430 struct as the exception. C32 monotonicity.
C33 minty/cgmath. C34 acceptance of derive inputs. C35 injectivity of generated names.
C36-C39 slices and blocks against GLSL arrays and blocks. C40 translation invariance.
C41 debug_metrics. C42 raw identifiers. C43 bytes equal in both layouts. C44 max/max_arr.
C45 recurrence for the number of calls, by induction on the field index. C46 divisibility by induction over types.
C47 induction on the number of pulls; for infinite iterators on the free bytes of the buffer.
C48 induction over the call tree of the implementation, simulation between sinks.
C49 induction over the fields relating the running sum of the generated struct with the placement of the Writer.
C50 equality of the layout functions of two targets by induction over type trees (no implicit padding, so Rust alignments do not matter).
C51, C52 the bytes of a struct are those of its fields placed one after the other (C49); prefix, resp. induction over renamings.
C53 the placement at least aligned offsets is pointwise minimal, by induction over the members.
C54 uniqueness of images; copies to disjoint ranges commute. C55 C03 + C20 + C23. C56 induction over the slice.
C57 induction over types: zeroed is a fixed point of converting back and forth.
C58-C60 reading depends only on the bytes of the variable; parts lie inside and apart, by induction over paths; host and GLSL assignment commute with the value correspondence, which is injective on plain types.
C61-C62 the running Sizer is `extent` of the field metrics (C17); a uniform sequence of parts renders to the concatenation iff element size is aligned; strided reads of a concatenation.
C63 exact run over `&mut [u8]` by induction over the parts; C08. (C35, module level: `Proofs_Module.v`.)
C64 the image is injective in the parts (induction), parts are injective in the values (C20, C22). C65 the image around one part. C66 C17; sums under permutation; induction over decreasing powers of two.
C67 IEEE 754 decoding is monotone in the bit pattern without sign, so equal numbers have equal patterns up to the sign of zero; C22 for the bytes.
C68 shifting every position by a multiple of the alignments shifts the placements; conversely two aligned positions differ by a multiple. C69 induction over the parts with a sink that records its calls.
C70 the conversions store 0 or 1 for booleans (induction on the host type), what a shader reads from a normal buffer is encoded by the bytes at the places of the components (induction on the GLSL type), C19 and C23. C71 places do not depend on the value, so equal places give equal images; conversely a value with a single nonzero component separates two layouts that place it differently.
C72 a typed GLSL value has placements that decode to it (induction on the GLSL type), placements of a layout are disjoint, so an image exists; C24 turns it into a host value, injectivity of `gval_of` makes it unique. C73 induction over the members: the writer's placements refine to the placements of the scalar components (C70 inside each value, C39's cursor argument between values).
C74 inverts the lexer and parser on the generated text (the declarations of an accepted program are the ones generated, struct by struct), and the elaborator (accepted means no duplicate names, members distinct, each used struct declared before): so the hypotheses of C30 hold; C17 and C23 then give layout and values.
C75 mutual induction over the derivation that says which parts are converted: Output type, validity and as_stdN agree; the GLSL value then agrees because both are what a shader reads from the same bytes (C23). Layouts do not mix: ALIGNMENT of the other layout is undefined for every Output that is not a scalar.
C76 simulation between two sinks that answer alike, through padding, values, slices, iterators and histories; overwriting twice in a row is overwriting once. C77 the BufWriter obeys the contract of write_all for "passed on, then buffered", so C03 and C09 apply; what was passed on only grows.
C78 all matrix types are square, so rule 7 gives the same sizes as rule 5 (induction over GLSL types); component r of column c is read where column-major puts component c of column r; transposing is a function, so the symmetric case follows.
C79 the Writer's end position after a slice is offset + (n-1)*stride + size exactly (uniform parts); the length rule of OpenGL (integer division of what follows the offset by the stride) is then arithmetic; the stride is the size except for three-component vectors (case analysis over the type table, structs by rounding).
C80 reading is compositional: both declarations read the same strides (C23); the one-field struct is C49 with C07 and C17.
C81 the decorations read off the Rust type are those of the standard layout (C15, C16, by paths); these are valid by induction over the GLSL type (alignments are powers of two; a member's reserved space is within its GLSL size).
C82 one attempt described exhaustively (as for C10), induction over the attempts at a value and over the values; a failed attempt without uncounted bytes leaves a state from which the next attempt completes the same image.
C83 induction over the GLSL type: a position at most M*k, aligned to a divisor of M, is at most M*k; then over the sequence of types.
C84 induction over the WGSL type: sizes, alignments, offsets and reads without attributes equal the std430 ones of the GLSL type, and with the attributes the std140 ones; for the equivalence, a value with a single 1 bit per component locates every component, so equal reads give equal component positions, and those are equal only if every member structure is a multiple of 16 large where followed.
C85 induction over the type tree: the derived code at user types equals the derived code at their Outputs applied to the replaced value (fields are found by name, names are distinct), so C14-C23 apply to the replaced value; the round trip by induction over the parts.
C86 the invariants of TypeFacts.v without the bound on alignments (LayoutFacts.v), by induction over `layout_type`; Pod (every value has bytes) implies that no padding exists; offsets as for C17; nested parts by induction over `derived_part`, a member's power-of-two ALIGNMENT divides the struct's; the two refutations by concrete types.
C87 the Writer on sinks that may panic (Unwind.v, same control flow as Buffer.write_std); a panicking sink is translated to one that reports a reserved error code, and caught panics to handled errors, so C48 and C82 carry over; the one-call theorem by cases on the sink call that failed; iterators by induction over the items yielded before the panic.
C88 user implementations with any layout type as Output (CustomAny.v, generalises Custom.v); structural induction over the type, the step for derived structs is C86's conversion theorem at the parts' results, alignment of a part by C86's nested alignment theorem.
C89 the GPU harness (Harness.v) against a lexer, grammar, static checks and execution relation for a fragment of GLSL compute shaders (SpecProgram.v); replace passes through texts without occurrences, lexing and parsing of the resulting concatenation piece by piece, execution by induction over the assignments and C58.
C90 the macros (Asserts.v) print a concatenation of messages (induction over the fields) that a line reader (SpecAsserts.v) reads back; the numbers are those of C15/C16.
C91 rustc's method lookup (Methods.v: filter by receiver, inherent first) is proved to find the unique preferred candidate (SpecMethods.v); the derive with the methods called is a C88 struct, so its theorems apply.
C92 a token-level model of `emit` (Tokens.v) and an independent reader of Rust items (SpecTokens.v); each emitter is proved to be undone by its reader for arbitrary following tokens, by induction on the fields.
C93 a token-level model of the glsl `emit` (GlslTokens.v) and an independent reader of impls with generics (SpecGlslTokens.v), by induction on the fields and on the tokens of the generics.
C94 a token-level model of both macros' bodies (PrimTokens.v) and an independent reader (SpecPrimTokens.v); induction on the fields of a row and on the rows; the names of the real tables by case analysis.
C95 a token-level model of the macro's body (EasyTokens.v) and an independent reader (SpecEasyTokens.v); induction on the fields.
C96 a token-level model of the macro's body (MintyTokens.v) and an independent reader that returns every type it meets (SpecMintyTokens.v).

## 5. Assumptions of the theorems

`Print Assumptions` prints "Closed under the global context" for every theorem in
`Properties_*.v`: no axioms, not even those of the standard library, are used.
