# Formal model of Protryon/protospec in Rocq (Coq 8.16.1)

All sources are under `/repo/protospec-build/src` (paths below are relative to it) and are read as text; nothing is built or run.  The model is hand-written
Gallina.  Every definition of the model carries a comment with the file and lines it models and, where it simplifies, says so.

protospec is a compiler: text in the protospec language goes in, Rust source with `encode_*`/`decode_*` functions comes out.  The model follows that
pipeline, and adds the meaning of the Rust code that comes out:

    text --tokenize--> tokens --parse--> tree --from_ast--> typed program --lower--> declarations --coders--> instructions --meaning--> bytes <-> values
         Tokens.v            Parse.v, Ast.v      Front.v, Program.v     Lower.v     Asg.v         Gen/Decode/Encode.v (both steps)

## Layout (`rocq/theories/`)

* Model files (only definitions, executable): see the table below.
* `*Spec.v`, `Grammar.v`, `Print.v`, `Spec.v`, `ReadBack.v`: independent specifications used in theorem statements (a grammar of the concrete syntax, a
  reference semantics of the wire format on types and values, a typing of constant expressions, the import graph, ...).  They mention no parser state,
  registers, instructions or buffers.
* `*Facts.v`, `DecRef.v`, `EncRef.v`, `RoundTrip.v`, `Relax.v`, `Valid.v`, `Local.v`, `Reenc.v`, `Elab*.v`, `Scope*.v`, `Parse{Sound,Complete}.v`: proofs.
* `Safe.v`: not code of the project but a check on programs (an interval analysis of emitted expressions plus recursion ranks); C49 proves that programs
  which pass it have decoders that always return.
* `Tame.v`: not code of the project; it says for which texts C52 claims that the compiler does not panic.
* `Examples.v`: the specifications that ship with the project and its tests, as text, and their wire formats written independently.
* `P_*.v`: the property theorems.  Each is closed by `exact`, followed by `Print Assumptions`, with `Example ..._nonvacuous` showing a concrete case that
  meets its hypotheses.  Suffix `_partial`: part of the property, the comment says what is missing.  Suffix `_refuted`: the property (or the missing part)
  is false of the code, with a concrete witness: these are bugs found in protospec.

## Conventions

* Bytes are `Z` in `[0,256)` (`bytes_ok`); streams are `list Z`; a reader returns its value and the remaining input.
* Integers are `Z` tagged with their Rust type, with explicit range checks and wraps.  Overflow checks are a parameter (`w_chk`): on for the debug profile,
  off (wrapping) for release.
* `res E A := Ok | Err | Panic | Hang`: Rust's `Result`, and panics and divergence as separate outcomes, so a theorem that excludes them says so.
* Functions that recurse on something Coq cannot see decreasing take fuel `n` (or `k`); running out gives `Hang` (or `None` in specifications), never a
  wrong answer.  Theorems quantify over all fuel; where it matters there are monotonicity or sufficiency lemmas (e.g. the parser's fuel is proved
  sufficient, `Relax.v` for the coders).
* A panic of the *compiler* in the code generators is `None` in `Gen.v`.

## What is modelled

| repo file | model | remarks |
|---|---|---|
| `tokenizer.rs` | `Tokens.v` | whole file; source is a list of UTF-8 bytes; spans kept |
| `parser/**`, `ast/**` | `Parse.v`, `Ast.v` | whole parser; spans dropped from the tree |
| `asg/**`, `semantics/**` | `Front.v`, `Program.v` | whole analysis: types, casts and coercions, expressions, arguments, fields, containers, enums, bitfields, declarations, imports, FFI declarations, recursion scan. `Arc<Field>`/`RefCell` nodes are numbers into a store |
| `asg/expression/const_int.rs` | `ConstInt.v` | whole file |
| `ast/types/scalar.rs` | `Scalar.v` | sizes, ranges, casts, byte orders |
| `compiler/expr.rs` 168-251 | `Expr.v`, `ConstSpec.v` | constant evaluation |
| `compiler/expr.rs` 253-420 | `Expr.v` (`emit`, `reval`) | emitted expressions and their Rust meaning |
| `compiler/mod.rs` 145-176, 308-469 | `Data.v` | the struct, enum and type definitions generated for a declaration, and the values they can have |
| `compiler/mod.rs` 471-732 | `EnumBits.v` | emitted enum and bitfield code |
| `coder/decode/**`, `compiler/decoder.rs` | `Decode.v` | instruction generation, and the meaning of the code emitted for every instruction |
| `coder/encode/**`, `compiler/encoder.rs` | `Encode.v` | same, with the `__blen` buffers |
| `prelude/{var,utf8,utf16,pad,bits,sum,len,blen}.rs` | `Prelude.v`, `Expr.v` | emitted code of the prelude's types and functions |
| `ffi/**` | parameters | foreign types, functions and transforms are abstract (`world`); laws assumed of them are hypotheses of the theorems (`world_laws`, `local_world`, ...), proved for the prelude in `World.v` |
| `asg` -> coders | `Lower.v` | joins the two representations of the typed program used by the analysis and the coder models |

## What is not modelled

* `prelude/gzip.rs`: the compression library.  Transforms are an abstract parameter with laws; a concrete `xor` transform and base64 (`Base64.v`, the
  documented behaviour of the base64 crate) meet the laws.
* `compiler/mod.rs`: module layout and imports of the generated file (91-144, 177-306; derives are modelled in `Derives.v`), except `prepare_impls`'s parameters (C47).  Rust's own type checker is not modelled; a program
  whose generated code rustc rejects is outside the coder theorems (the model gives such programs a meaning, or `Panic` where none is sensible).
* Async output: it differs from the sync output by `.await`, `decode_async`/`encode_async` and trait names; the model covers the sync text.
* Real I/O errors: a reader fails only by end of input or by malformed data, a writer never fails.  How much a buffered reader holds when it is peeked is
  modelled (`w_fill`), see C45.
* Error message texts, diagnostics (`semantics/error.rs` spans), file system lookup of imports (the resolver is a parameter).  `compile_spec` is modelled (`Driver.v`) with the text of the generated code as a parameter.
* Allocation limits: an allocation beyond isize::MAX bytes panics (`cap`, `arr_size` in `Asg.v`); smaller ones always succeed, whatever the memory of the machine.  Elements are counted as one byte each.
* `HashMap` iteration order where it decides only the order of emitted items.

## Trusted base

* Coq 8.16.1's kernel, including `vm_compute`; the standard library.
* `Print Assumptions` of every theorem listed below prints `Closed under the global context`: no axiom, of the standard library or otherwise, is used.
  (`vcheck`'s `library_axioms` mentions `Coq.ssr.ssrunder` constants: they are merely loaded with the standard library's tactics and no theorem uses them.)
* No `Admitted`, no `Axiom`/`Parameter`/`Variable` outside sections, no functors or module types, no kernel flags.
* The reading of the Rust code: the generated Rust text is not parsed; each instruction's emitted token stream is modelled by a clause citing the lines that
  emit it.  The meaning of Rust's std functions used by emitted code (`read_exact`, `from_be_bytes`, `String::from_utf8`, ...) is as documented.
* The statements: `properties.jsonl` in English, `P_*.v` in Coq, the specifications in the files named above.

## Testing the theorems

`seeded/LOG.jsonl` lists edits to scratch copies of the model (wrong boundary, dropped case, swapped argument, ...), the theorems that stopped proving, and
the theorems tightened when an edit that falsified a claim was not noticed.

## Properties

For each property: model files, method, theorems (all `Closed under the global context`), and what is missing.

### C01 Scalar fields round-trip in both byte orders (proved)

Encoding any in-range value of any of the ten scalar types (u8..u128, i8..i128), big- or little-endian, followed by any bytes, and decoding it back yields the same value and leaves exactly the following bytes; the encoding is always the type's declared number of bytes.

Model: Scalar. Proof: induction on width, div/mod algebra.

* `C01_scalar_roundtrip`: closed under the global context

all ten scalar types, both byte orders

### C02 Scalar decoding is a bijection and respects byte order (proved)

Every byte string of a scalar's width decodes to an in-range value whose re-encoding is that same byte string; the little-endian encoding is the big-endian one reversed; the big-endian bytes read as base-256 digits give the value's unsigned image. Fewer bytes than the width is an error.

Model: Scalar. Proof: same, both directions.

* `C02_scalar_decode_bijective`: closed under the global context
* `C02_scalar_byte_order`: closed under the global context

### C03 Compile-time integer arithmetic is exact or refused (partial)

Evaluating +, -, *, /, %, shifts, bitwise and comparison operators on two constants of the same integer type yields a result in range of that type: the mathematically exact one for arithmetic and comparisons (one that does not fit, and division by zero, is refused, never returned wrapped), the two's-complement one for bitwise operators and shifts (a left shift drops the bits shifted out; a shift amount outside 0..bits is refused); mixed types never yield a value.

Model: ConstInt. Proof: case analysis per type, Z bit lemmas.

* `C03_arith_exact_or_refused`: closed under the global context
* `C03_div_rem`: closed under the global context
* `C03_div_by_zero_refused`: closed under the global context
* `C03_bitwise`: closed under the global context
* `C03_bitnot`: closed under the global context
* `C03_shift`: closed under the global context
* `C03_compare`: closed under the global context
* `C03_mixed_types_give_nothing`: closed under the global context
* `C03_release_profile_refuted`: closed under the global context

Proved in full for a compiler built with overflow checks; without them (release build scripts) the claim is false (refuted).

### C04 Integer literal parsing is exact (proved)

An integer literal, decimal or 0x-hexadecimal, evaluates to exactly its numeric value when that fits the target type and is rejected with an error otherwise; printing any constant in decimal and parsing it returns the same constant.

Model: ConstInt. Proof: induction on digits.

* `C04_decimal_literal`: closed under the global context
* `C04_hex_literal`: closed under the global context
* `C04_print_parse`: closed under the global context

### C05 Implicit casts never change a value (proved)

Whenever the language allows one scalar type to be used where another is expected without an explicit cast, the inserted conversion preserves the numeric value for every value; explicit casts between integer types reduce modulo 2^bits into the target's range.

Model: ConstInt, Front. Proof: case analysis per pair of scalars.

* `C05_implicit_cast_preserves_value`: closed under the global context
* `C05_implicit_cast_iff_widening`: closed under the global context
* `C05_explicit_cast_mod`: closed under the global context

### C06 VarInt prelude types round-trip (partial)

Encoding any value of v8/v16/v32/v64/v128 and decoding it yields that value and leaves exactly the following bytes.

Model: Prelude. Proof: induction on the 7-bit groups; exact domain characterised, outside it refuted.

* `C06_varint_roundtrip_refuted`: closed under the global context
* `C06_varint_roundtrip_partial`: closed under the global context
* `C06_varint_decode_encode`: closed under the global context

The code violates the property: byte limit computed from bytes instead of bits. Exact domain characterised (iff).

### C07 VarInt encodings are minimal-length groups of seven bits (proved)

The varint encoding of a value is non-empty, every byte but the last has the continuation bit set and the last has it clear, the low seven bits little-endian spell the value's unsigned image, and the length is the least possible.

Model: Prelude. Proof: as C06.

* `C07_varint_shape`: closed under the global context

### C08 utf8 prelude strings round-trip (partial)

A string encoded with the null-terminated utf8 type and decoded yields the same string and leaves the following bytes; with an explicit byte length it does so whenever the string has that many bytes.

Model: Prelude. Proof: UTF-8 coder/decoder proved inverse by induction on code points.

* `C08_utf8_nul_roundtrip_partial`: closed under the global context
* `C08_utf8_embedded_nul_cuts`: closed under the global context
* `C08_utf8_len_roundtrip`: closed under the global context
* `C08_utf8_len_decode_canonical`: closed under the global context
* `C08_utf8_missing_nul_accepted`: closed under the global context

Length form proved in full. Null-terminated form round-trips iff no embedded NUL (iff proved), and accepts missing terminators.

### C09 utf16 prelude strings round-trip (partial)

A string encoded by the utf16 type and decoded with its code-unit count yields the same string.

Model: Prelude. Proof: UTF-16 likewise; byte order mismatch refuted.

* `C09_utf16_roundtrip_big_endian_partial`: closed under the global context
* `C09_utf16_little_endian_partial`: closed under the global context
* `C09_utf16_roundtrip_refuted`: closed under the global context

The code violates the property on little-endian hosts: written big-endian, read native-endian.

### C10 pad() computes the least padding (proved)

pad(base, p) is the least n such that base+n is a multiple of p, always less than p, for every non-zero p; p = 0 is an error.

Model: Prelude. Proof: arithmetic.

* `C10_pad_least`: closed under the global context
* `C10_pad_zero`: closed under the global context

### C11 bits() counts the set bits and sum() adds exactly (partial)

bits(x) equals the number of one bits in the two's-complement image of x for every integer type; sum(xs) is the arithmetic sum of the elements when it fits in u64 and otherwise is an error, independent of element order.

Model: Prelude. Proof: induction on bits / lists.

* `C11_bits_counts_ones`: closed under the global context
* `C11_sum_exact`: closed under the global context
* `C11_sum_order_independent`: closed under the global context
* `C11_sum_signed_refuted`: closed under the global context

Proved for unsigned elements; for signed arrays (accepted by the compiler) the claim is false (refuted).

### C12 Enums round-trip and reject unknown tags (proved)

For every enum definition with distinct values, each named variant encodes as its declared value and decodes back to itself; an undeclared value decodes to the default variant carrying it if there is one and otherwise is an error; decode is total on declared values.

Model: EnumBits. Proof: list induction.

* `C12_enum_named_roundtrip`: closed under the global context
* `C12_enum_default_roundtrip`: closed under the global context
* `C12_enum_unknown_rejected`: closed under the global context
* `C12_enum_decode_reencode`: closed under the global context
* `C12_duplicate_values_refuted`: closed under the global context

Distinctness of values is a stated hypothesis (the compiler does not check it; refuted without).

### C13 Enum and bitfield automatic values follow the declaration (partial)

An item without an explicit value takes the last explicit value plus its distance (enum) or shifted left by its distance (bitfield); an enum's default arm may only be last; a value out of range of the backing scalar is an error not a wrapped value.

Model: EnumBits. Proof: induction on items.

* `C13_enum_auto_values`: closed under the global context
* `C13_enum_default_last`: closed under the global context
* `C13_enum_no_panic`: closed under the global context
* `C13_bitfield_auto_values_partial`: closed under the global context
* `C13_bitfield_overflow_refuted`: closed under the global context

Enums in full; for bitfields a shifted value silently drops overflowing bits (refuted), characterised modulo 2^bits.

### C14 Bitfields round-trip and reject undeclared bits (proved)

Every combination of declared flags encodes to the or of their values and decodes back to the same combination; a value with an undeclared bit is rejected when decoding.

Model: EnumBits. Proof: Z.testbit.

* `C14_bitfield_roundtrip_iff`: closed under the global context
* `C14_flag_combinations_roundtrip`: closed under the global context
* `C14_flag_getters`: closed under the global context

### C15 Tokenization is lossless and total (partial)

Writing out any token sequence with whitespace between tokens and tokenizing it again yields the same tokens; tokenizing any input terminates with tokens or a positioned error; the produced tokens cover the input in order without inventing or dropping characters other than whitespace and comments.

Model: Tokens, TokSpec. Proof: induction on input.

* `C15_terminates`: closed under the global context
* `C15_tokens_cover_text`: closed under the global context
* `C15_strip_removes_comments_only`: closed under the global context
* `C15_retokenize`: closed under the global context
* `C15_error_position`: closed under the global context
* `C15_panic_refuted`: closed under the global context

Termination, coverage, retokenization and error position for every text; refuted: a hex escape can panic, and a trailing "/*" is dropped.

### C16 Operators are tokenized by maximal munch (proved)

At every position the tokenizer takes the longest operator that matches, and identifiers/keywords/integers extend as far as their character class allows.

Model: Tokens, TokSpec. Proof: case analysis.

* `C16_longest_match`: closed under the global context

Every token is the longest prefix that is the text of any token.

### C17 String literals round-trip through escapes (partial)

Escaping any byte string as a string literal and tokenizing it yields the same bytes.

Model: Tokens, TokSpec. Proof: induction on the literal.

* `C17_escape_roundtrip_partial`: closed under the global context
* `C17_hex_escape_refuted`: closed under the global context

Every string that can stand in a UTF-8 source round-trips; hexadecimal escapes do not.

### C18 Token positions identify the source text (partial)

The line number attached to each token is one plus the number of newlines before it, and its column range is the range of columns it occupies.

Model: Tokens, TokSpec. Proof: invariant of the position counters.

* `C18_positions_partial`: closed under the global context
* `C18_positions_refuted`: closed under the global context

Right when no token spans lines, up to the first line's columns being 64 too large.

### C19 Expressions parse back to what was written (proved)

Every expression tree, printed with parentheses only where the documented precedence table requires them, parses back to the same tree, consuming exactly its own tokens.

Model: Parse, Grammar, Print. Proof: soundness and completeness against a grammar; printing.

* `C19_print_parse`: closed under the global context
* `C19_every_spelling`: closed under the global context
* `C19_only_grammar`: closed under the global context
* `C19_unambiguous`: closed under the global context
* `C19_parentheses_needed`: closed under the global context
* `C19_terminates`: closed under the global context

The grammar (Grammar.v) and printer (Print.v) are separate from the parser (Parse.v). Printing needs names that lex as identifiers and literals with a spelling (ok_e).

### C20 Binary operators group left and by precedence (proved)

For any two binary operators a op1 b op2 c parses as (a op1 b) op2 c when op1 binds at least as tightly as op2 and as a op1 (b op2 c) otherwise; a cast binds tighter than all of them except ?:, with which it shares its level, and unary operators tighter still, though looser than indexing and member access.

Model: Parse, Grammar. Proof: as C19.

* `C20_grouping`: closed under the global context
* `C20_cast`: closed under the global context
* `C20_unary`: closed under the global context

Operands are any expressions of unary level or tighter. The precedence table is op_prec in Grammar.v.

### C21 Declarations and types parse back to what was written (partial)

Every program AST (type, const, import and ffi declarations, containers, enums, bitfields, arrays, fields with conditions, transforms and calculations) printed in the concrete syntax parses back to the same AST with no tokens left over; trailing commas are accepted in every comma list and do not change the result.

Model: Parse, Grammar, Print. Proof: as C19.

* `C21_parser_is_grammar`: closed under the global context
* `C21_print_parse`: closed under the global context
* `C21_result_printable`: closed under the global context
* `C21_text`: closed under the global context
* `C21_trailing_commas`: closed under the global context
* `C21_flags_after_calculation_refuted`: closed under the global context
* `C21_spec_syntax_refuted`: closed under the global context

Proved for every tree with a concrete syntax (ok_program). The unrestricted claim is false: a field with both a calculated value and flags cannot be written, and three forms allowed by SPEC.md are rejected; both are theorems with suffix _refuted.

### C22 The type compatibility relations are consistent (partial)

Assignability is reflexive; assignable implies castable; scalar widening is a partial order (reflexive, transitive, antisymmetric) and never joins types of different signedness; inferring a partial type from a type accepts that type back.

Model: Front. Proof: induction on types.

* `C22_reflexive_partial`: closed under the global context
* `C22_assignable_castable`: closed under the global context
* `C22_widening_order`: closed under the global context
* `C22_inferred_accepts_partial`: closed under the global context
* `C22_string_reflexive_refuted`: closed under the global context
* `C22_coercible_castable_refuted`: closed under the global context
* `C22_little_array_refuted`: closed under the global context
* `C22_recursive_comparison_refuted`: closed under the global context
* `C22_assignment_widens`: closed under the global context
* `C22_conversion_keeps_values`: closed under the global context

Reflexivity and acceptance of inferred types for types whose foreign parts accept themselves; the exceptions (string types, little-endian arrays, recursive types, coercions not allowed as casts) are proved as refutations.

### C23 A well-typed constant expression evaluates to its declared type (partial)

If semantic analysis accepts an expression for an expected type, evaluating it at compile time yields a value of exactly that type or a reported arithmetic error; it never gets stuck on a type mismatch.

Model: Front, ConstSpec, KindSpec. Proof: invariant over the whole analysis.

* `C23_constants_partial`: closed under the global context
* `C23_stuck_refuted`: closed under the global context

Proved for every accepted program (through the parser's output, imports and the whole analysis): constants, enum variants and bitfield flags whose expressions contain no bool arithmetic, ! on integers, ?: or cast to a non-integer type evaluate to their declared type or to a genuine arithmetic fault. The refuted theorem gives accepted programs outside that set on which evaluation gets stuck.

### C24 Constant evaluation and generated code agree (partial)

The value computed for an expression at compile time is the value the generated Rust expression computes at run time.

Model: Expr, LowerSpec. Proof: induction on expressions.

* `C24_agrees_partial`: closed under the global context
* `C24_emission_refuted`: closed under the global context

Agreement proved by induction for all renderable expressions; the refuted theorem gives accepted expressions whose emitted Rust computes another value or is not Rust.

### C25 Type arguments are checked against the declaration (partial)

A type reference is accepted exactly when it supplies at least the required and at most the declared number of arguments; a required parameter after an optional one is rejected; the accepted reference passes every supplied argument in order and the defaults for the rest.

Model: Front. Proof: list induction.

* `C25_accepted`: closed under the global context
* `C25_complete_partial`: closed under the global context
* `C25_optional_arguments_refuted`: closed under the global context
* `C25_order_refuted`: closed under the global context

Accepted references proved right for all programs; the converse fails when required and optional parameters mix (refuted).

### C26 Function and transform arguments are checked against the declaration (partial)

A call is accepted exactly when the number of arguments lies between the required and the declared number, never crashing the compiler, and arguments are bound in order.

Model: Front. Proof: list induction.

* `C26_call_accepted`: closed under the global context
* `C26_transform_accepted`: closed under the global context
* `C26_count_check_partial`: closed under the global context
* `C26_too_many_refuted`: closed under the global context

Accepted calls and transforms proved right; a wrong count is not always reported (crash) - exact characterisation and refutation.

### C27 Recursive types are detected (partial)

A type is marked possibly-recursive exactly when it can reach itself through its fields; the generated async reader and writer of a type that can call itself are emitted with boxed futures precisely then.

Model: Program, CycleSpec. Proof: closure of the scan.

* `C27_recursion_partial`: closed under the global context
* `C27_detection_ends`: closed under the global context
* `C27_names_refuted`: closed under the global context

Proved when no two fields or types met from the type share a name; with clashing names the marking is wrong both ways (refuted).

### C28 Definitions are unique and lookups return the right one (partial)

Declaring the same type, const or container field name twice is an error; in an accepted program every name resolves to the one declaration that introduced it, fields shadowing arguments shadowing constants.

Model: Front, Program, ElabSpec, ReadBack. Proof: the analysis mirrors the source, by induction on syntax and invariants over declarations.

* `C28_declarations_partial`: closed under the global context
* `C28_read_back_partial`: closed under the global context
* `C28_redeclaration_rejected`: closed under the global context
* `C28_scoping`: closed under the global context
* `C28_import_overwrites_refuted`: closed under the global context

Declarations, duplicates and scoping proved for every program whose container fields are not named like generated padding (_pad<k>); read back from the accepted (import-free) program, a type declaration is the one written, up to number spelling and conversions; imports replacing an existing name silently is refuted.

### C29 Imports terminate and are loaded once (partial)

Loading a program terminates for every import graph, loads each file at most once, and gives each imported item the definition of that name in the imported file.

Model: Program, ImportSpec. Proof: invariants of loading.

* `C29_terminates_partial`: closed under the global context
* `C29_loaded_once_partial`: closed under the global context
* `C29_loads_exactly`: closed under the global context
* `C29_items_partial`: closed under the global context
* `C29_cyclic_rejected`: closed under the global context
* `C29_cyclic_import_refuted`: closed under the global context

Proved for import graphs without infinite chains; for cyclic imports termination and load-once are refuted (the loader recurses for ever).

### C30 Generated instruction streams are well scoped (partial)

For every accepted type, the instruction sequence generated for its encoder and decoder reads only registers, streams and field references already defined in scope, and nested blocks never leak definitions used outside them.

Model: Gen, Decode, Encode, ScopeSpec, Lower. Proof: static scoping judgement over instructions, by induction on types.

* `C30_accepted_decoders_partial`: closed under the global context
* `C30_decoder_scoped_partial`: closed under the global context
* `C30_encoder_scoped_partial`: closed under the global context
* `C30_sibling_variant_refuted`: closed under the global context
* `C30_conditional_length_refuted`: closed under the global context
* `C30_early_length_refuted`: closed under the global context

The decoder of every accepted declaration that is not a tagged container is well scoped (each variable in scope where used, none defined twice, no stream used after its end, no break outside its block). For encoders and tagged containers: well scoped whenever the declaration's expressions mention only fields available there (dec_names_ok, enc_names_ok). The claim for every accepted declaration is refuted: a variant's condition may mention a sibling variant, and two uses of blen leave the encoder using a variable outside its block or before it is set.

### C31 Every encodable value round-trips through its container type (partial)

For every type built from scalars, bools, enums, bitfields, arrays, containers, conditions and references and every value of it whose encoding succeeds, decoding the produced bytes followed by anything yields the same value and leaves exactly what followed.

Model: Decode, Encode, Spec, World, Lower. Proof: refinement of generated code to a reference semantics, then round trip by induction on types.

* `C31_text_roundtrip_partial`: closed under the global context
* `C31_generated_code_meets_reference`: closed under the global context
* `C31_roundtrip_partial`: closed under the global context
* `C31_valid_values_roundtrip_partial`: closed under the global context
* `C31_prelude_roundtrip_partial`: closed under the global context
* `C31_unconditional_refuted`: closed under the global context

Round trip of the generated encoder and decoder for every program in the checked subset rt_program (RtWf.v) and every value the checked encoding accepts; C31_valid_values_roundtrip_partial describes the values without any encoder (ValidSpec.v: scalars, enums, bitfields, foreign types, references, arrays, conditional, calculated, padding and transformed fields, tagged enums; rest arrays of elements that take room, transformed nested containers and containers whose declared length is their contents' declared size; not conditional containers, not lengths computed with blen). Also stated from the text through parser, analysis and lowering. Refuted as stated (a value stored under a false condition is dropped).

### C32 The decoder consumes only the type's own bytes and re-encodes them (partial)

When decoding succeeds, the bytes consumed are exactly a prefix of the input and the decoded value re-encodes (where encodable) to that prefix, so formats without redundant representations are bijective.

Model: as C31. Proof: re-encoding by induction on types.

* `C32_decode_consumes_prefix`: closed under the global context
* `C32_reencode_partial`: closed under the global context

Decoding consumes a prefix; re-encoding reproduces the consumed bytes when the decoded value is canonical and overflow checks are on.

### C33 Truncated input is always rejected (partial)

Decoding any proper prefix of a valid encoding of a self-delimiting type reports an error instead of a value.

Model: as C31. Proof: locality of the reference reader.

* `C33_truncation_partial`: closed under the global context
* `C33_prelude_truncation_partial`: closed under the global context
* `C33_truncation_refuted`: closed under the global context

Every proper prefix of an encoding is refused with end-of-file for programs whose types are all of declared extent, including the prelude's variable-length integers; refuted in general.

### C34 Length-prefixed arrays carry exactly the declared number of elements (partial)

Decoding an array with length n yields exactly n elements in stream order; encoding an array whose length differs from the declared expression never produces output; order is preserved.

Model: as C31. Proof: refinement.

* `C34_reads_declared_length`: closed under the global context
* `C34_decoder_reads_declared_length`: closed under the global context
* `C34_wrapped_length_refuted`: closed under the global context
* `C34_bulk_arrays_checked`: closed under the global context
* `C34_loop_arrays_partial`: closed under the global context
* `C34_extra_elements_dropped_refuted`: closed under the global context

Arrays of refs longer than their declared length are silently cut by the encoder; without overflow checks a declared length whose byte size wraps a usize is accepted with fewer elements (both refuted).

### C35 Rest-of-stream arrays consume everything or fail (partial)

A [..] array decodes all remaining bytes into consecutive elements, and an incomplete final element is an error.

Model: as C31. Proof: refinement.

* `C35_reads_to_the_end_partial`: closed under the global context
* `C35_partial_element_dropped_refuted`: closed under the global context

An incomplete last element is dropped for arrays of wider scalars.

### C36 Terminated arrays stop exactly at the terminator (partial)

A [.."X"] array round-trips whenever no element's encoding begins with (or creates) the terminator, decoding terminates on every input, and a missing terminator is an error.

Model: as C31. Proof: induction on the input.

* `C36_terminated_roundtrip`: closed under the global context
* `C36_missing_terminator_refuted`: closed under the global context
* `C36_termination_refuted`: closed under the global context
* `C36_element_as_terminator_refuted`: closed under the global context

Round trip when the terminator never appears at an element boundary; the unconditional claims are refuted.

### C37 Conditional fields are present exactly when the condition holds (partial)

A field with a condition is read and written iff the condition evaluates to true over the already coded fields; encoding a value whose presence disagrees with a true condition is an error; a false condition writes no bytes.

Model: as C31. Proof: refinement.

* `C37_conditional_read`: closed under the global context
* `C37_decoder_presence`: closed under the global context
* `C37_encoder_presence_partial`: closed under the global context
* `C37_extra_value_accepted_refuted`: closed under the global context

The encoder accepts a value under a false condition.

### C38 Length-constrained containers stay inside their length (partial)

A container with a length reads at most that many bytes, fields after it start exactly that many bytes later, and encoding contents of a different size is rejected.

Model: as C31. Proof: refinement.

* `C38_contents_stay_inside`: closed under the global context
* `C38_leftovers_not_skipped_refuted`: closed under the global context
* `C38_size_unchecked_refuted`: closed under the global context

Contents never read past the declared length; leftovers are not skipped, and the encoder does not check the length.

### C39 Calculated fields always match the data (partial)

A calculated field (len, blen or any expression) encodes the value computed from the other fields irrespective of what the user stored there, in its declared position, so that decoding reproduces it.

Model: as C31. Proof: refinement with pending lengths.

* `C39_stored_value_ignored`: closed under the global context
* `C39_formula_written`: closed under the global context
* `C39_blen_written`: closed under the global context
* `C39_blen_counts_bytes`: closed under the global context
* `C39_decode_reproduces_partial`: closed under the global context
* `C39_two_lengths_refuted`: closed under the global context

Formula always written, for any stored values, one pending byte length at a time; two pending byte lengths are written in the wrong order.

### C40 Transform pipelines are inverted in the right order (partial)

For a field with transforms T1 -> T2 -> ... -> Tn (each with its own inverse), encoding then decoding yields the original value, applying the transforms left to right when serializing and right to left when deserializing.

Model: as C31. Proof: refinement.

* `C40_written_last_first`: closed under the global context
* `C40_read_last_first`: closed under the global context
* `C40_commuting_pipeline_partial`: closed under the global context
* `C40_two_transforms_refuted`: closed under the global context

The decoder undoes the innermost transform first, so pipelines only invert when the transforms commute.

### C41 Tagged enums choose the first matching variant both ways (partial)

Decoding a tagged enum reads the first variant whose condition holds and encoding writes exactly the variant the value holds and fails when that variant's condition does not hold, so encode/decode agree.

Model: as C31. Proof: refinement.

* `C41_reads_first_match`: closed under the global context
* `C41_no_match_no_value`: closed under the global context
* `C41_writes_held_variant_partial`: closed under the global context
* `C41_other_variant_refused`: closed under the global context
* `C41_no_match_encodes_refuted`: closed under the global context
* `C41_variant_transform_refuted`: closed under the global context

Encoding writes nothing and succeeds when no condition holds.

### C42 Padding directives skip exactly what was written (partial)

.pad: n writes n zero bytes and reads exactly n bytes, so the fields after it are aligned; insertion never alters or drops another field.

Model: as C31. Proof: refinement.

* `C42_pad_written`: closed under the global context
* `C42_pad_read`: closed under the global context

Pads of any container; the front end's naming of pads (collisions) is C43.

### C43 A container keeps exactly its declared items (partial)

The typed container has the declared items, in order, under distinct names, each with its own type, condition, transforms and calculation; conditions and lengths see only earlier fields, calculations see all; nothing is added, dropped or reordered.

Model: Front, ElabSpec. Proof: as C28.

* `C43_items_kept_partial`: closed under the global context
* `C43_names_kept_partial`: closed under the global context
* `C43_pad_collision_refuted`: closed under the global context

Proved for all container bodies except fields named like generated padding, for which the property is false (refuted).

### C44 Declaration order of types is irrelevant (partial)

Permuting the type declarations of a program changes neither whether it is accepted nor the meaning of any type.

Model: Program, ReadBack. Proof: as C28.

* `C44_declaration_order_refuted`: closed under the global context
* `C44_same_meaning_partial`: closed under the global context

Refuted: a type not yet declared counts as bool while earlier declarations are analysed. Proved: when two orders of an import-free program are both accepted, every declared type reads back the same from both, up to conversions.

### C45 Decoding does not depend on how the input arrives (partial)

The value a generated decoder returns and the input it leaves depend only on the bytes of the input, not on the portions in which the reader delivers them.

Model: Decode, ChunkFacts. Proof: simulation between two readers.

* `C45_same_or_stuck_partial`: closed under the global context
* `C45_single_byte_terminators_partial`: closed under the global context
* `C45_split_terminator_refuted`: closed under the global context

For every program and every way of splitting the input, decoding gives the result it gives on the whole input or never ends; it never fails to end if terminators are single bytes. With longer terminators split between portions it does hang (refuted).

### C46 len() measures the data it is applied to (partial)

A field calculated as len(x) is written as the number of elements of x when x is an array, and as the length x has on the wire (the length its type's argument means) when x is a string, whatever value the message being encoded stores in that field; a message 'n: u64 = len(s), s: T(n)' or 'n: u64 = len(s), s: T[n]' can therefore be decoded, and ends where its data ends.

Model: Expr, Prelude, PreludeNames, World. Proof: computation of the reference semantics on symbolic data, then C31.

* `C46_string_length`: closed under the global context
* `C46_element_count`: closed under the global context
* `C46_utf16_length_refuted`: closed under the global context

Exact bytes and round trip proved for utf8 and arrays of any scalar; for utf16, len() counts UTF-8 bytes where the type means 16-bit units (refuted).

### C47 Arguments passed to a type are the ones its body sees (partial)

When a declared type is encoded or decoded with arguments, a required parameter is its argument, an optional parameter is its argument if one is supplied and otherwise the default, computed from the parameters before it; arguments that do not fit are refused; and a reference to the type from another type passes the arguments the same way.

Model: Asg, Decode, Encode. Proof: bind_params against an inductive specification, refinement.

* `C47_body_sees_arguments`: closed under the global context
* `C47_arguments_checked`: closed under the global context
* `C47_reference_defaults_refuted`: closed under the global context

Proved for the encode/decode functions themselves; a reference from another type to a type with a defaulted parameter is accepted but never works (refuted, for every program).

### C48 Decoded values are values of the generated data types (partial)

Whatever bytes a generated decoder is given, if it returns a value then that value is one the generated Rust type of the declaration can have: every field of the struct, in order and with its declared type; Option exactly for fields under a condition; vectors of the declared element type; integers in their range; only declared enum variants; strings that are valid Unicode.

Model: Data (generated definitions, values of a type). Proof: induction on recursion depth and types; the reader's result has the emitted type.

* `C48_decoded_values_typed_partial`: closed under the global context
* `C48_prelude_decoded_typed_partial`: closed under the global context
* `C48_mismatched_types_refuted`: closed under the global context

Missing: programs outside data_wf. For those the full statement is false: conditions inside conditional containers, arrays of aliases of primitives and conditions on whole containers give generated code whose reader and data types disagree (refuted).

### C49 Decoders return on every input (partial)

Whatever bytes a generated decoder is given, it returns: a value or an error, never a panic (overflow, division by zero, capacity overflow) and never an endless loop or endless recursion, and given a deep enough stack the answer does not depend on the stack.

Model: Safe (interval analysis of emitted expressions, recursion ranks), Spec, Decode. Proof: soundness of the analysis by induction on expressions; lexicographic induction on recursion rank and remaining input.

* `C49_decoder_returns_partial`: closed under the global context
* `C49_prelude_decoder_returns_partial`: closed under the global context
* `C49_crashes_refuted`: closed under the global context

proved for programs that pass the decidable check of Safe.v (intervals for lengths and arithmetic, guarded recursion, elements that read a byte); the full statement is refuted: length fields, arithmetic, unguarded recursion, empty elements and truncated terminators crash decoders of accepted programs

### C50 The shipped NBT specification reads and writes NBT (partial)

The NBT specification that ships as the project's example is accepted by the compiler, and the code generated from it writes every NBT tree (numbers, strings, lists, compounds, arrays, nested to any depth) as the NBT wire format says and reads every such encoding back as the same tree, for single tags and for whole files.

Model: Examples (texts, NBT trees and wire format), the whole pipeline from text to generated code. Proof: the compiler model is run on the text inside the kernel; then induction on NBT trees over the reference semantics, and C31 to transfer to the generated code.

* `C50_nbt_roundtrip_partial`: closed under the global context
* `C50_nbt_file_partial`: closed under the global context
* `C50_nbt_shipped_refuted`: closed under the global context
* `C50_nbt_byte_arrays_refuted`: closed under the global context
* `C50_nbt_negative_count_refuted`: closed under the global context

The shipped text is rejected by the compiler (refuted: a missing comma, then an unknown type, then signed array lengths). For the text with these three corrections, writing and reading are proved for every tree without byte arrays (which the specification has no variant for: refuted) and for whole files; negative counts panic (refuted).

### C51 The PNG and packet specifications of the test suite mean their formats (proved)

The PNG specification and the length-prefixed packet specification in the integration tests are accepted; generated code writes every value as the format's bytes and reads them back; whatever the PNG decoder accepts is a signature followed by well-formed chunks and nothing else; and both decoders return, without panic or endless loop, on every byte string.

Model: Examples (texts, chunk and packet formats), the whole pipeline. Proof: as C50; the decode direction by inversion of the reference decoder; returning by the C49 check.

* `C51_png`: closed under the global context
* `C51_packet`: closed under the global context

Compiler model run on the texts; round trip for every value; for PNG the accepted language is exactly the format; both decoders return on every input.

### C52 The compiler does not crash on its input (partial)

Tokenizing, parsing and analysing a specification, and everything it imports, returns an analysed program or a diagnostic; no unwrap, expect, slice or index in the compiler's front end panics because of what the text says.

Model: Tokens, Parse, Front, Program (whole front end, imports included); Tame (the texts it is claimed for). Proof: invariants: every stored reference is in range through every step of the analysis; induction over the parser for the values of first enum items; refutation by running the model on crashing texts.

* `C52_compiler_never_panics_partial`: closed under the global context
* `C52_parser_never_panics`: closed under the global context
* `C52_parsed_items_have_values`: closed under the global context
* `C52_crashes_refuted`: closed under the global context

for texts without array indexing, without too many call arguments and without two-digit hexadecimal escapes; all three really crash the compiler (C52_crashes_refuted). Termination is C22/C29.

### C53 The base64 transform writes RFC 4648 text and reads it back (partial)

A field declared with the base64 transform is written as the RFC 4648 base64 text of the bytes it would have without the transform, whatever sizes the field is written in; reading returns the same value; and the fields that follow are written and read after it.

Model: Base64 (the crate's documented behaviour behind prelude/base64.rs; RFC 4648 on bit strings as specification), the coder model. Proof: induction on groups of three bytes; the round trip of protocols is C31 instantiated with the base64 surroundings; refutation through the reference semantics, for every input.

* `C53_rfc4648`: closed under the global context
* `C53_any_chunks`: closed under the global context
* `C53_inverse`: closed under the global context
* `C53_only_encodings`: closed under the global context
* `C53_protocols_roundtrip_partial`: closed under the global context
* `C53_message`: closed under the global context
* `C53_following_fields_refuted`: closed under the global context

The transform itself in full; protocols in the checked subset, for all valid values (ValidSpec.v, including base64-transformed fields: C53_valid_nonvacuous). Fields after a base64 field are lost, the reader takes everything to the end of the input (refuted).

### C54 compile_spec writes the generated code where include_spec! looks, and only on success (partial)

compile_spec returns Ok only if the specification is accepted and its generated code (as rustfmt prints it, if formatting is on) has been written to OUT_DIR/<name>.rs, the file include_spec!(name) includes; every other file is untouched. It returns an error exactly for the specifications the front end rejects, whatever the host does, and then no file changes. Specifications of different names do not overwrite each other.

Model: Driver.v. Proof: The host (environment variable, rustfmt, file system) is a record; compile_spec is a function of it. Case analysis; path lemmas for PathBuf::push against concat!..

* `C54_success`: closed under the global context
* `C54_errors`: closed under the global context
* `C54_other_files`: closed under the global context
* `C54_no_host`: closed under the global context
* `C54_included_partial`: closed under the global context
* `C54_names_apart`: closed under the global context
* `C54_failed_rustfmt_refuted`: closed under the global context
* `C54_absolute_name_refuted`: closed under the global context
* `C54_short_write_refuted`: closed under the global context

Proved for every host; include_spec! finds the file if the name is a relative path. Refuted: a failing rustfmt gives Ok and an empty file, an absolute name leaves OUT_DIR, a full device leaves half a file.

### C55 Generated data types compile with the derives asked for (partial)

The derive attribute of every generated type lists the traits of Options.struct_derives or enum_derives once each (Default written out for enums; Clone and Copy added for plain enums, Clone, Copy and Default for bitfields), every derive is one rustc accepts for the type's fields, the written-out Default builds a value of the type, and names and fields are usable as Rust identifiers without clashes.

Model: Derives.v (on Data.v). Proof: rustc's demands on derives as a separate specification (implements, derives_ok, default_ok); induction over the stored types. ready is a decidable check of whole programs..

* `C55_derive_list`: closed under the global context
* `C55_derives_accepted_partial`: closed under the global context
* `C55_compile_defaults_partial`: closed under the global context
* `C55_spec_defaults_partial`: closed under the global context
* `C55_float_refuted`: closed under the global context
* `C55_default_item_refuted`: closed under the global context
* `C55_no_variants_refuted`: closed under the global context
* `C55_path_derive_refuted`: closed under the global context
* `C55_duplicate_field_refuted`: closed under the global context
* `C55_keyword_refuted`: closed under the global context

The derive lists in full; acceptance for programs whose type names are all generated and whose enums start with a valued item. Refuted: floats with the default options (Eq), a lone default item, a tagged container without variants, derives given by path, nested fields of one name, Rust keywords.

### C56 The code generators produce code for accepted declarations (partial)

For every type declared in an accepted specification compile_program generates a decoder and an encoder instead of panicking: the decoder exactly if no condition is put on a container in which nothing has a value (only padding) or on a tagged container all of whose variants are conditional; the encoder whenever every blen(c) names a later container of the same container that has a declared length, in particular whenever blen is not used, whatever the nesting, conditions, transforms, arrays and padding.

Model: GenSpec.v, GenFacts.v, GenFront.v, P_Generate.v. Proof: The generators (Decode.v, Encode.v) give None where the Rust panics. Shape of lowered accepted types by induction on the analysis (GenFront); decoders: weakest-precondition style proof with exact success condition; encoders: invariant on fields waiting for a length (every awaited length is known or belongs to a container still to come)..

* `C56_decoder_generated`: closed under the global context
* `C56_encoder_generated_partial`: closed under the global context
* `C56_encoder_without_blen`: closed under the global context
* `C56_conditional_padding_refuted`: closed under the global context
* `C56_conditional_variants_refuted`: closed under the global context
* `C56_blen_refuted`: closed under the global context
* `C56_blen_again_refuted`: closed under the global context

Decoders: exact condition. Encoders: a sufficient condition (a blen of an earlier container can also work, C56_blen_again_refuted). The unconditional claim is refuted for conditional padding-only containers, conditional tagged containers with only conditional variants and three uses of blen. Types declared in the root file; names like generated padding excluded.

### C57 Encoders report a failing writer, and it has received a prefix of the message (partial)

Let a value's encoding be the bytes b. Calling its generated encoder with a writer that accepts k bytes and then fails delivers exactly the first k bytes of b to it: nothing is reordered, skipped or duplicated. If all of b fits, the call returns Ok; otherwise it returns the writer's error - provided no transform in use holds output back until it is dropped. For any other outcome (an encoding error, a panic) a failing writer has likewise received a prefix of what a working one would have received. With the prelude's base64 transform the proviso fails: the last group is written by the writer's Drop, which discards the error, so encode returns Ok although the message was truncated.

Model: Device.v, DeviceFacts.v, P_Device.v. Proof: The encoder machine is given a second semantics in which the caller's writer has limited room and keeps what it got (Device.v, instruction by instruction). Proved by simulation against Encode.v: after c bytes written in all, a writer of capacity k holds firstn k c. A second induction shows that every run writes the same bytes to every writer until it is full, whatever its outcome. The part of a transform's output that is only written on drop is a parameter (late); base64's is exhibited as a counterexample to error reporting..

* `C57_prefix`: closed under the global context
* `C57_reported`: closed under the global context
* `C57_any_outcome`: closed under the global context
* `C57_same_encoder`: closed under the global context
* `C57_base64_reported_refuted`: closed under the global context

Prefix and outcome proved for every program, value and capacity, with an arbitrary choice of what transforms write on drop; error reporting proved when they hold nothing back and refuted for base64. Transforms are taken to hand on their output at flush/drop only (never earlier), and gzip and the async encoders are not modelled.

### C58 Decoders never turn a reader's failure into a value (partial)

Let a reader deliver some bytes and then return an I/O error. The generated decoder either returns that error or returns exactly what it would have returned for those bytes followed by any continuation x whatsoever: the same value with x left unread, or the same decoding error (the only other possibility being that the longer input makes it loop). In particular a broken connection is never mistaken for the end of a rest-of-stream array, string or container. If the type and the types it refers to never ask for the end of their input, the failure is invisible once all bytes of the value have been delivered. With a clean end of input instead of an error the first half is false.

Model: Fault.v, FaultFacts.v, P_Fault.v. Proof: The decoder machine is given a second semantics in which streams know whether they end or fail (Fault.v, instruction by instruction; a Take of a failing stream fails only while its limit is not reached). Proved by simulation against Decode.v run on the delivered bytes followed by x, for every x; the case x = [] gives the comparison with a clean end. A static check on the generated instructions (exact) shows when the failure cannot be noticed. The prelude's foreign types are instantiated and shown to meet the law required of foreign code..

* `C58_never_invented`: closed under the global context
* `C58_never_invented_error`: closed under the global context
* `C58_same_or_reported`: closed under the global context
* `C58_delivered_partial`: closed under the global context
* `C58_prelude`: closed under the global context
* `C58_prelude_delivered_partial`: closed under the global context
* `C58_returning_programs`: closed under the global context
* `C58_end_of_input_refuted`: closed under the global context

For every program; on the longer input the model's loops may be judged stuck (Hang), excluded for the programs of C49 (C58_returning_programs). Transforms on a failing reader either have all they need or report the failure (their plaintext is not handed on piece by piece). C58_delivered_partial covers types that never ask for the end of their input.

### C59 Encoders return on every value of the generated data types (partial)

Whatever value of its generated Rust type it is given - also values no decoder would produce - a generated encoder returns either bytes or an EncodeError; it does not panic (array indexing, arithmetic overflow) and does not recurse forever, and how deep it recurses is bounded for each value. As stated this is false: the encoder indexes a fixed-length array up to the length the expression evaluates to, which a value may exceed; a computed u8 count silently truncates; arithmetic on stored values overflows. It is true of programs where every counted array's length is a field calculated with len() of that array and the interval analysis bounds the arithmetic.

Model: EncSafe.v, EncSafeFacts.v, P_EncSafe.v. Proof: A static check (EncSafe.v: types of the names in scope, intervals of Safe.v for the emitted expressions, and which count is the len of which array) is proved sufficient by induction on the height of the value, and inside it on the types and fields: the specification encoder (Spec.v) answers Ok or Err with any fuel above the height, and encode_refines carries this to the generated code. Prelude instance with every assumption on the program a decidable check; the programs excluded for good reason are shown to panic (C59_crashes_refuted)..

* `C59_encoder_returns_partial`: closed under the global context
* `C59_prelude_encoder_returns_partial`: closed under the global context
* `C59_failing_writer_partial`: closed under the global context
* `C59_crashes_refuted`: closed under the global context

Proved for every value of the generated type of any program that passes a decidable check (lengths computed with len, interval-safe arithmetic), also with a writer that fails; refuted in general by six accepted programs. Missing: safe programs the check rejects, e.g. counted arrays whose count a caller always sets right.

### C60 Generated code does not depend on hash order (proved)

Running the generator again on the same protocol gives the same code: the iteration order of the hash set in which the encoder's generator collects the fields named in blen() calls, which changes from run to run, influences neither whether generation succeeds nor the text that is emitted, nor therefore what the generated encoders do.

Model: EncOrd.v, P_EncOrd.v. Proof: The generator of Encode.v is written once more with an arbitrary permutation applied to every set (EncOrd.v), and shown to be Encode.v's when the permutation is the identity. A step-by-step simulation of the two generators, parametric in a relation on emitted code, is instantiated three times: equality, same emitted text (SetRef writes nothing; names are replaced by registers), same behaviour. The set elements only reach the code as SetRefs of distinct names..

* `C60_model`: closed under the global context
* `C60_same_text`: closed under the global context
* `C60_same_encoder`: closed under the global context

The instruction lists do differ (C60_nonvacuous); the emitted text does not. It is the only hash container whose iteration order reaches generation.

### C61 Messages sent one after another are received one after another (partial)

If a program of generated code encodes valid values v1,...,vn, of any mix of the program's types, one after another on one writer, then decoding the same types one after another from those bytes, followed by any further bytes, yields exactly v1,...,vn and leaves exactly the further bytes on the reader. Hence two different lists of valid messages of the same types never have the same bytes. If the stream is cut anywhere, the messages that lie wholly before the cut are received unchanged and the next decode call ends in an end-of-input error: never a wrong value. (A type that by its declaration takes everything to the end of the input can only come last.)

Model: P_Stream.v on top of the round trip (C31), locality and truncation (C24) theorems. Proof: induction over the list of messages, for the model's encode and decode called one after another; non-vacuity with three messages of the sample program, one of them shown valid field by field.

* `C61_stream_partial`: closed under the global context
* `C61_unambiguous_partial`: closed under the global context
* `C61_cut_partial`: closed under the global context
* `C61_prelude_stream_partial`: closed under the global context

Proved for every program in the checked subset of C31 (prog_ok) and every list of messages of any length whose values the checked encoding accepts (every valid value does, ValidSpec.v); the cut is proved for types whose extent the declaration determines (local, C24). Missing: programs outside the checked subset.

### C62 Encodings have the size the declaration implies (proved)

Each declaration implies a least and, unless it has an open part (strings, counted or unbounded arrays, transforms), a largest number of bytes: scalars, floats, bools, enums and bitfields take the size of their type, arrays of n elements n times the element, pads their length, a conditional field nothing or its size, containers the sum of their fields, tagged choices the size of one variant. Every encoding the generated encoder produces, for any value, has a length in that range; every successful decode takes a number of bytes in that range and leaves the rest on the reader; an input shorter than the least size is never decoded to a value; a type of fixed layout always takes exactly its size.

Model: Sizes.v (the sizes a declaration implies: a small specification over the syntax, no coder mentioned), SizeFacts.v, P_Sizes.v. Proof: induction over declarations and reference depth for the reference reader and writer of Spec.v, transferred to the generated code by the refinement theorems (DecRef, EncRef); the prelude's varints are shown to be within 1 byte and one byte per 7 bits; non-vacuity with seven types of a program text, of fixed, bounded and open size.

* `C62_encoded_size`: closed under the global context
* `C62_decoded_size`: closed under the global context
* `C62_too_short`: closed under the global context
* `C62_fixed_size`: closed under the global context
* `C62_prelude_sizes`: closed under the global context

the range is computed from the declaration alone (Sizes.v); foreign types enter by their own ranges (world_sizes), which are proved for the prelude; array lengths that are not number literals, transforms and length-prefixed strings count as open

### C63 The wire format of a type depends only on the types it refers to (partial)

Whatever else a specification declares, the encoder and decoder generated for a type behave the same - same values, bytes, errors and bytes taken, for every argument and input - as those generated from any other accepted specification in which that type and the types it refers to, directly or indirectly, are declared alike. So adding types anywhere in a file, or changing types that are not referred to, never changes the wire format of the others.

Model: Modular.v, P_Modular.v; P_ReadBack.v for the front end. Proof: congruence: the reference reader and writer are equal, for all inputs, for two programs that agree on a set of types closed under references (induction over types and recursion depth), transferred to the generated code by DecRef/EncRef; front end: what is read back of a declaration is the same in both accepted programs; non-vacuity with two texts that differ in five types.

* `C63_same_format`: closed under the global context
* `C63_additions`: closed under the global context
* `C63_front_end_partial`: closed under the global context

Generated code: proved for all pairs of programs the generator emits code for. Front end: proved for what is read back of a declaration (casts are not shown), for programs without imports and fields not named like padding.

### C64 Generated code for non-recursive types needs bounded stack (partial)

If no type that a type refers to refers back to itself, its generated decoder and encoder never have more generated functions on the call stack than the specification declares types, whatever the input, arguments or value. (For recursive types there is no bound: each byte of input can add a level, so input of n bytes can force n nested calls.)

Model: P_Depth.v on Modular.v. Proof: the model's encode and decode take the number of nested calls allowed as an argument and give Hang when it is exceeded; pigeonhole over the functions on the stack (all different, else a type refers back to itself) shows that more than the number of declared types changes nothing; refutation for recursive types by induction on the depth.

* `C64_bounded_depth`: closed under the global context
* `C64_in_order`: closed under the global context
* `C64_recursive_refuted`: closed under the global context

Proved in full for non-recursive types; the refutation shows that recursive types have no such bound (a user who expects one, e.g. not to overflow the stack on hostile input, cannot rely on it).

### C65 Decoded values are not larger than their input (partial)

When a generated decoder returns a value, the numbers, booleans, enum values, flag sets and characters in that value are together at most as many as the bytes the decoder took: a short input cannot make the decoder return large data, whatever length fields it contains.

Model: Leaves.v, P_Leaves.v. Proof: Induction over types with a size measure on values: each reader takes at least as many bytes as the leaves it returns; carried to the generated decoder by the refinement theorem. The number of elements itself is refuted with elements that take no bytes..

* `C65_no_larger`: closed under the global context
* `prelude_world_small`: closed under the global context
* `b64_world_small`: closed under the global context
* `C65_shipped_no_larger`: closed under the global context
* `C65_elements_refuted`: closed under the global context

For the generator model over every compiled program. Leaves of the value are counted, not array lengths: C65_elements_refuted shows an array of elements that take no bytes is as long as a 4-byte length field says. Worlds whose transforms expand (gzip, unmodelled) are excluded by small_world; the shipped foreign types, xor and base64 meet it.

### C66 Constants mean their values (partial)

Using a constant in a specification is the same as writing its value there: wherever a constant's name may be written (in another constant, an enum variant's or flag's value, an array length, a condition, a default, a type argument), the resulting generated code behaves as if the constant's definition had been written instead.

Model: P_Consts.v. Proof: Induction on expressions: compile-time evaluation of an expression equals that of the expression with every constant written out. For run-time expressions the claim is false: compile_program emits no constants (mod.rs 145-176), yet expr.rs 363-368 emits their names; refuted with a pair of accepted texts that differ only in the use of a constant..

* `C66_compile_time`: closed under the global context
* `C66_generated_refuted`: closed under the global context

Proved for everything evaluated while compiling. False of what generated code evaluates: the generated code writes the name of a constant that it never defines (so it does not compile; the model makes such an evaluation fail), C66_generated_refuted gives two accepted texts that differ only in a constant written out.

### C67 Layout and comments do not matter (proved)

White space and comments carry no meaning: two specification texts that consist of the same tokens, comments left out, are either both rejected or both accepted, and then denote the same program; the same holds for every file they import. Any accepted text may be laid out afresh, with whatever white space and comments one likes between its tokens.

Model: P_Layout.v. Proof: The parser reads the comment-free token list only, so parse depends on the tokens alone (from C15's strip lemma); loading an import tree is by induction on its depth, with imported files related pairwise; any layout by C15's re-tokenisation. Error positions are not part of the modelled errors..

* `C67_same_program`: closed under the global context
* `C67_any_layout`: closed under the global context
* `C67_tidy`: closed under the global context
* `C67_tidied`: closed under the global context

Texts with the same tokens, comments left out, are analysed to the same result, program or error, whatever the layout of the imported files. C67_any_layout: any spelling of these tokens with white space after each and comments anywhere is such a text (tight layouts come under C67_same_program). The positions carried by error messages are not modelled, so equal errors means equal up to positions.

### C68 A container is written as its fields, one after the other (proved)

The wire format is compositional: the encoding of a container is, field by field in declaration order, what the encode function of each field's type gives for the field's value (with the type arguments evaluated on the container's fields, and nothing for conditional fields whose condition is false); decoding a container is decoding its fields in turn with the decode functions of their types. The first field that fails decides the error.

Model: P_Compose.v. Proof: The specification reads and writes the fields in turn with encode and decode of the referenced types themselves (generated code), not with the reference semantics; induction on the fields through the refinement theorems in both directions, so results agree on failures too..

* `C68_write`: closed under the global context
* `C68_read`: closed under the global context
* `C68_concatenation`: closed under the global context

For every program whose declarations compile (prog_ok implies it), in a world whose foreign readers leave a suffix (the prelude does). Stated with encode and decode of the generated code on both sides; equal as results, failures included. The value of the struct lists exactly the fields, as the generated Rust struct does. Arrays, nested containers and attributes other than conditions are outside the statement (C31, C34, C38-C42 treat them).

### C69 Fields can be added at the end of a container (proved)

If a container gets new fields after its old ones, old readers keep working: every input the new reader reads is read by the old reader, with the same values for the fields it knows, leaving the bytes from the first added field on; and an input the old reader refuses is refused by the new one with the same error. Conversely, if the added fields are conditional and their conditions are false of the old fields (a version number), the new reader reads old messages, the added fields being absent.

Model: P_Evolve.v. Proof: Through the refinement to the reference reader, whose field sequence splits at the old fields; that the old reader leaves the added fields' bytes by the length bounds of SizeFacts.v and suffixing; absence by induction on the added fields. For messages of the new writer combined with C31's round trip..

* `C69_old_reader`: closed under the global context
* `C69_same_refusal`: closed under the global context
* `C69_old_message`: closed under the global context
* `C69_new_message`: closed under the global context

Both versions are declarations of one program (C63 transfers this to two programs). C69_new_message: for messages of the generated encoder, with the valid values and program subset of C31. Containers nested in other types by reference are not covered by compatibility (what follows them would be misread), nor is a declared length on the container itself.

### C70 Variants can be added to tagged containers and enums (proved)

Adding variants at the end of a tagged container, or valued variants before an enum's default, changes nothing for messages that do not use them: where an old variant is selected, the new type reads and writes exactly what the old type does, failures included; an enum message whose tag is none of the added values is read to the same variant, default or refusal, and every old enum value is written as before.

Model: P_Variants.v. Proof: Through the refinement to the reference semantics: induction on the variants before the selected one; for enums on the arms before the added ones. Equalities of results, so failures are covered..

* `C70_tagged_read`: closed under the global context
* `C70_tagged_write`: closed under the global context
* `C70_enum_read`: closed under the global context
* `C70_enum_write`: closed under the global context

Both versions are declarations of one program without transforms on the type itself. selected is the first variant whose condition holds. A value of the old type is turned into one of the new by its type name only (retag, reenum), as a Rust program would rebuild it.

### C71 Grouping fields in a nested container does not change the format (proved)

A nested container without condition, transform or declared length is only a grouping: a type with the group reads and writes exactly what the type with the group's fields in its place does, on every input and value, failures included, and the generated structs have the same fields.

Model: P_Group.v. Proof: Through the refinement to the reference semantics, whose field sequence is associative: reading and writing a group is reading and writing its fields (induction on the fields before it); transforms and declared lengths of the outer type only see the same bytes. C71_scope: names in a group are not visible outside it, so not every flat declaration can be grouped..

* `C71_read`: closed under the global context
* `C71_write`: closed under the global context
* `C71_scope`: closed under the global context

Both forms are declarations of one program (C63 transfers this to two programs). Equalities of results of the generated code, all failures included. C71_scope: the source names of grouped fields are visible inside the group only.

### C72 Aliases and arrays are written as what they name (proved)

A type declared as another type with arguments reads and writes exactly the bytes of that type with those arguments (evaluated on its own), failures included, wrapping the value once. An array of n containers is n times the container, one after the other: reading reads n of them in turn, writing concatenates their encodings. An array to the end of the input reads container after container until nothing is left (and fails when one of them does); writing concatenates their encodings.

Model: P_Alias.v. Proof: Through the refinement to the reference semantics; induction on the number of elements. Both sides of the equations are the generated code's encode and decode..

* `C72_read`: closed under the global context
* `C72_write`: closed under the global context
* `C72_array_read`: closed under the global context
* `C72_array_write`: closed under the global context
* `C72_rest_read`: closed under the global context
* `C72_rest_write`: closed under the global context

For declarations without transforms. Arrays with fewer or more values than the count are C34. Arrays of scalars, enums and bitfields are read in one piece (C34).

