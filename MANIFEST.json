{
 "claims": [
  {
   "property": "C01",
   "status": "proved",
   "theorems": [
    "C01_scalar_roundtrip"
   ],
   "note": "all ten scalar types, both byte orders"
  },
  {
   "property": "C02",
   "status": "proved",
   "theorems": [
    "C02_scalar_decode_bijective",
    "C02_scalar_byte_order"
   ],
   "note": ""
  },
  {
   "property": "C03",
   "status": "partial",
   "theorems": [
    "C03_arith_exact_or_refused",
    "C03_div_rem",
    "C03_div_by_zero_refused",
    "C03_bitwise",
    "C03_bitnot",
    "C03_shift",
    "C03_compare",
    "C03_mixed_types_give_nothing",
    "C03_release_profile_refuted"
   ],
   "note": "Proved in full for a compiler built with overflow checks; without them (release build scripts) the claim is false (refuted)."
  },
  {
   "property": "C04",
   "status": "proved",
   "theorems": [
    "C04_decimal_literal",
    "C04_hex_literal",
    "C04_print_parse"
   ],
   "note": ""
  },
  {
   "property": "C05",
   "status": "proved",
   "theorems": [
    "C05_implicit_cast_preserves_value",
    "C05_implicit_cast_iff_widening",
    "C05_explicit_cast_mod"
   ],
   "note": ""
  },
  {
   "property": "C06",
   "status": "partial",
   "theorems": [
    "C06_varint_roundtrip_refuted",
    "C06_varint_roundtrip_partial",
    "C06_varint_decode_encode"
   ],
   "note": "The code violates the property: byte limit computed from bytes instead of bits. Exact domain characterised (iff)."
  },
  {
   "property": "C07",
   "status": "proved",
   "theorems": [
    "C07_varint_shape"
   ],
   "note": ""
  },
  {
   "property": "C08",
   "status": "partial",
   "theorems": [
    "C08_utf8_nul_roundtrip_partial",
    "C08_utf8_embedded_nul_cuts",
    "C08_utf8_len_roundtrip",
    "C08_utf8_len_decode_canonical",
    "C08_utf8_missing_nul_accepted"
   ],
   "note": "Length form proved in full. Null-terminated form round-trips iff no embedded NUL (iff proved), and accepts missing terminators."
  },
  {
   "property": "C09",
   "status": "partial",
   "theorems": [
    "C09_utf16_roundtrip_big_endian_partial",
    "C09_utf16_little_endian_partial",
    "C09_utf16_roundtrip_refuted"
   ],
   "note": "The code violates the property on little-endian hosts: written big-endian, read native-endian."
  },
  {
   "property": "C10",
   "status": "proved",
   "theorems": [
    "C10_pad_least",
    "C10_pad_zero"
   ],
   "note": ""
  },
  {
   "property": "C11",
   "status": "partial",
   "theorems": [
    "C11_bits_counts_ones",
    "C11_sum_exact",
    "C11_sum_order_independent",
    "C11_sum_signed_refuted"
   ],
   "note": "Proved for unsigned elements; for signed arrays (accepted by the compiler) the claim is false (refuted)."
  },
  {
   "property": "C12",
   "status": "proved",
   "theorems": [
    "C12_enum_named_roundtrip",
    "C12_enum_default_roundtrip",
    "C12_enum_unknown_rejected",
    "C12_enum_decode_reencode",
    "C12_duplicate_values_refuted"
   ],
   "note": "Distinctness of values is a stated hypothesis (the compiler does not check it; refuted without)."
  },
  {
   "property": "C13",
   "status": "partial",
   "theorems": [
    "C13_enum_auto_values",
    "C13_enum_default_last",
    "C13_enum_no_panic",
    "C13_bitfield_auto_values_partial",
    "C13_bitfield_overflow_refuted"
   ],
   "note": "Enums in full; for bitfields a shifted value silently drops overflowing bits (refuted), characterised modulo 2^bits."
  },
  {
   "property": "C14",
   "status": "proved",
   "theorems": [
    "C14_bitfield_roundtrip_iff",
    "C14_flag_combinations_roundtrip",
    "C14_flag_getters"
   ],
   "note": ""
  },
  {
   "property": "C15",
   "status": "partial",
   "theorems": [
    "C15_terminates",
    "C15_tokens_cover_text",
    "C15_strip_removes_comments_only",
    "C15_retokenize",
    "C15_error_position",
    "C15_panic_refuted"
   ],
   "note": "Termination, coverage, retokenization and error position for every text; refuted: a hex escape can panic, and a trailing \"/*\" is dropped."
  },
  {
   "property": "C16",
   "status": "proved",
   "theorems": [
    "C16_longest_match"
   ],
   "note": "Every token is the longest prefix that is the text of any token."
  },
  {
   "property": "C17",
   "status": "partial",
   "theorems": [
    "C17_escape_roundtrip_partial",
    "C17_hex_escape_refuted"
   ],
   "note": "Every string that can stand in a UTF-8 source round-trips; hexadecimal escapes do not."
  },
  {
   "property": "C18",
   "status": "partial",
   "theorems": [
    "C18_positions_partial",
    "C18_positions_refuted"
   ],
   "note": "Right when no token spans lines, up to the first line's columns being 64 too large."
  },
  {
   "property": "C19",
   "status": "proved",
   "theorems": [
    "C19_print_parse",
    "C19_every_spelling",
    "C19_only_grammar",
    "C19_unambiguous",
    "C19_parentheses_needed",
    "C19_terminates"
   ],
   "note": "The grammar (Grammar.v) and printer (Print.v) are separate from the parser (Parse.v). Printing needs names that lex as identifiers and literals with a spelling (ok_e)."
  },
  {
   "property": "C20",
   "status": "proved",
   "theorems": [
    "C20_grouping",
    "C20_cast",
    "C20_unary"
   ],
   "note": "Operands are any expressions of unary level or tighter. The precedence table is op_prec in Grammar.v."
  },
  {
   "property": "C21",
   "status": "partial",
   "theorems": [
    "C21_parser_is_grammar",
    "C21_print_parse",
    "C21_result_printable",
    "C21_text",
    "C21_trailing_commas",
    "C21_flags_after_calculation_refuted",
    "C21_spec_syntax_refuted"
   ],
   "note": "Proved for every tree with a concrete syntax (ok_program). The unrestricted claim is false: a field with both a calculated value and flags cannot be written, and three forms allowed by SPEC.md are rejected; both are theorems with suffix _refuted."
  },
  {
   "property": "C22",
   "status": "partial",
   "theorems": [
    "C22_reflexive_partial",
    "C22_assignable_castable",
    "C22_widening_order",
    "C22_inferred_accepts_partial",
    "C22_string_reflexive_refuted",
    "C22_coercible_castable_refuted",
    "C22_little_array_refuted",
    "C22_recursive_comparison_refuted",
    "C22_assignment_widens",
    "C22_conversion_keeps_values"
   ],
   "note": "Reflexivity and acceptance of inferred types for types whose foreign parts accept themselves; the exceptions (string types, little-endian arrays, recursive types, coercions not allowed as casts) are proved as refutations."
  },
  {
   "property": "C23",
   "status": "partial",
   "theorems": [
    "C23_constants_partial",
    "C23_stuck_refuted"
   ],
   "note": "Proved for every accepted program (through the parser's output, imports and the whole analysis): constants, enum variants and bitfield flags whose expressions contain no bool arithmetic, ! on integers, ?: or cast to a non-integer type evaluate to their declared type or to a genuine arithmetic fault. The refuted theorem gives accepted programs outside that set on which evaluation gets stuck."
  },
  {
   "property": "C24",
   "status": "partial",
   "theorems": [
    "C24_agrees_partial",
    "C24_emission_refuted"
   ],
   "note": "Agreement proved by induction for all renderable expressions; the refuted theorem gives accepted expressions whose emitted Rust computes another value or is not Rust."
  },
  {
   "property": "C25",
   "status": "partial",
   "theorems": [
    "C25_accepted",
    "C25_complete_partial",
    "C25_optional_arguments_refuted",
    "C25_order_refuted"
   ],
   "note": "Accepted references proved right for all programs; the converse fails when required and optional parameters mix (refuted)."
  },
  {
   "property": "C26",
   "status": "partial",
   "theorems": [
    "C26_call_accepted",
    "C26_transform_accepted",
    "C26_count_check_partial",
    "C26_too_many_refuted"
   ],
   "note": "Accepted calls and transforms proved right; a wrong count is not always reported (crash) - exact characterisation and refutation."
  },
  {
   "property": "C27",
   "status": "partial",
   "theorems": [
    "C27_recursion_partial",
    "C27_detection_ends",
    "C27_names_refuted"
   ],
   "note": "Proved when no two fields or types met from the type share a name; with clashing names the marking is wrong both ways (refuted)."
  },
  {
   "property": "C28",
   "status": "partial",
   "theorems": [
    "C28_declarations_partial",
    "C28_read_back_partial",
    "C28_redeclaration_rejected",
    "C28_scoping",
    "C28_import_overwrites_refuted"
   ],
   "note": "Declarations, duplicates and scoping proved for every program whose container fields are not named like generated padding (_pad<k>); read back from the accepted (import-free) program, a type declaration is the one written, up to number spelling and conversions; imports replacing an existing name silently is refuted."
  },
  {
   "property": "C29",
   "status": "partial",
   "theorems": [
    "C29_terminates_partial",
    "C29_loaded_once_partial",
    "C29_loads_exactly",
    "C29_items_partial",
    "C29_cyclic_rejected",
    "C29_cyclic_import_refuted"
   ],
   "note": "Proved for import graphs without infinite chains; for cyclic imports termination and load-once are refuted (the loader recurses for ever)."
  },
  {
   "property": "C30",
   "status": "partial",
   "theorems": [
    "C30_accepted_decoders_partial",
    "C30_decoder_scoped_partial",
    "C30_encoder_scoped_partial",
    "C30_sibling_variant_refuted",
    "C30_conditional_length_refuted",
    "C30_early_length_refuted"
   ],
   "note": "The decoder of every accepted declaration that is not a tagged container is well scoped (each variable in scope where used, none defined twice, no stream used after its end, no break outside its block). For encoders and tagged containers: well scoped whenever the declaration's expressions mention only fields available there (dec_names_ok, enc_names_ok). The claim for every accepted declaration is refuted: a variant's condition may mention a sibling variant, and two uses of blen leave the encoder using a variable outside its block or before it is set."
  },
  {
   "property": "C31",
   "status": "partial",
   "theorems": [
    "C31_text_roundtrip_partial",
    "C31_generated_code_meets_reference",
    "C31_roundtrip_partial",
    "C31_valid_values_roundtrip_partial",
    "C31_prelude_roundtrip_partial",
    "C31_unconditional_refuted"
   ],
   "note": "Round trip of the generated encoder and decoder for every program in the checked subset rt_program (RtWf.v) and every value the checked encoding accepts; C31_valid_values_roundtrip_partial describes the values without any encoder (ValidSpec.v: scalars, enums, bitfields, foreign types, references, arrays, conditional, calculated, padding and transformed fields, tagged enums; rest arrays of elements that take room, transformed nested containers and containers whose declared length is their contents' declared size; not conditional containers, not lengths computed with blen). Also stated from the text through parser, analysis and lowering. Refuted as stated (a value stored under a false condition is dropped)."
  },
  {
   "property": "C32",
   "status": "partial",
   "theorems": [
    "C32_decode_consumes_prefix",
    "C32_reencode_partial"
   ],
   "note": "Decoding consumes a prefix; re-encoding reproduces the consumed bytes when the decoded value is canonical and overflow checks are on."
  },
  {
   "property": "C33",
   "status": "partial",
   "theorems": [
    "C33_truncation_partial",
    "C33_prelude_truncation_partial",
    "C33_truncation_refuted"
   ],
   "note": "Every proper prefix of an encoding is refused with end-of-file for programs whose types are all of declared extent, including the prelude's variable-length integers; refuted in general."
  },
  {
   "property": "C34",
   "status": "partial",
   "theorems": [
    "C34_reads_declared_length",
    "C34_decoder_reads_declared_length",
    "C34_wrapped_length_refuted",
    "C34_bulk_arrays_checked",
    "C34_loop_arrays_partial",
    "C34_extra_elements_dropped_refuted"
   ],
   "note": "Arrays of refs longer than their declared length are silently cut by the encoder; without overflow checks a declared length whose byte size wraps a usize is accepted with fewer elements (both refuted)."
  },
  {
   "property": "C35",
   "status": "partial",
   "theorems": [
    "C35_reads_to_the_end_partial",
    "C35_partial_element_dropped_refuted"
   ],
   "note": "An incomplete last element is dropped for arrays of wider scalars."
  },
  {
   "property": "C36",
   "status": "partial",
   "theorems": [
    "C36_terminated_roundtrip",
    "C36_missing_terminator_refuted",
    "C36_termination_refuted",
    "C36_element_as_terminator_refuted"
   ],
   "note": "Round trip when the terminator never appears at an element boundary; the unconditional claims are refuted."
  },
  {
   "property": "C37",
   "status": "partial",
   "theorems": [
    "C37_conditional_read",
    "C37_decoder_presence",
    "C37_encoder_presence_partial",
    "C37_extra_value_accepted_refuted"
   ],
   "note": "The encoder accepts a value under a false condition."
  },
  {
   "property": "C38",
   "status": "partial",
   "theorems": [
    "C38_contents_stay_inside",
    "C38_leftovers_not_skipped_refuted",
    "C38_size_unchecked_refuted"
   ],
   "note": "Contents never read past the declared length; leftovers are not skipped, and the encoder does not check the length."
  },
  {
   "property": "C39",
   "status": "partial",
   "theorems": [
    "C39_stored_value_ignored",
    "C39_formula_written",
    "C39_blen_written",
    "C39_blen_counts_bytes",
    "C39_decode_reproduces_partial",
    "C39_two_lengths_refuted"
   ],
   "note": "Formula always written, for any stored values, one pending byte length at a time; two pending byte lengths are written in the wrong order."
  },
  {
   "property": "C40",
   "status": "partial",
   "theorems": [
    "C40_written_last_first",
    "C40_read_last_first",
    "C40_commuting_pipeline_partial",
    "C40_two_transforms_refuted"
   ],
   "note": "The decoder undoes the innermost transform first, so pipelines only invert when the transforms commute."
  },
  {
   "property": "C41",
   "status": "partial",
   "theorems": [
    "C41_reads_first_match",
    "C41_no_match_no_value",
    "C41_writes_held_variant_partial",
    "C41_other_variant_refused",
    "C41_no_match_encodes_refuted",
    "C41_variant_transform_refuted"
   ],
   "note": "Encoding writes nothing and succeeds when no condition holds."
  },
  {
   "property": "C42",
   "status": "partial",
   "theorems": [
    "C42_pad_written",
    "C42_pad_read"
   ],
   "note": "Pads of any container; the front end's naming of pads (collisions) is C43."
  },
  {
   "property": "C43",
   "status": "partial",
   "theorems": [
    "C43_items_kept_partial",
    "C43_names_kept_partial",
    "C43_pad_collision_refuted"
   ],
   "note": "Proved for all container bodies except fields named like generated padding, for which the property is false (refuted)."
  },
  {
   "property": "C44",
   "status": "partial",
   "theorems": [
    "C44_declaration_order_refuted",
    "C44_same_meaning_partial"
   ],
   "note": "Refuted: a type not yet declared counts as bool while earlier declarations are analysed. Proved: when two orders of an import-free program are both accepted, every declared type reads back the same from both, up to conversions."
  },
  {
   "property": "C45",
   "status": "partial",
   "theorems": [
    "C45_same_or_stuck_partial",
    "C45_single_byte_terminators_partial",
    "C45_split_terminator_refuted"
   ],
   "note": "For every program and every way of splitting the input, decoding gives the result it gives on the whole input or never ends; it never fails to end if terminators are single bytes. With longer terminators split between portions it does hang (refuted)."
  },
  {
   "property": "C46",
   "status": "partial",
   "theorems": [
    "C46_string_length",
    "C46_element_count",
    "C46_utf16_length_refuted"
   ],
   "note": "Exact bytes and round trip proved for utf8 and arrays of any scalar; for utf16, len() counts UTF-8 bytes where the type means 16-bit units (refuted)."
  },
  {
   "property": "C47",
   "status": "partial",
   "theorems": [
    "C47_body_sees_arguments",
    "C47_arguments_checked",
    "C47_reference_defaults_refuted"
   ],
   "note": "Proved for the encode/decode functions themselves; a reference from another type to a type with a defaulted parameter is accepted but never works (refuted, for every program)."
  },
  {
   "property": "C48",
   "status": "partial",
   "theorems": [
    "C48_decoded_values_typed_partial",
    "C48_prelude_decoded_typed_partial",
    "C48_mismatched_types_refuted"
   ],
   "note": "Missing: programs outside data_wf. For those the full statement is false: conditions inside conditional containers, arrays of aliases of primitives and conditions on whole containers give generated code whose reader and data types disagree (refuted)."
  },
  {
   "property": "C49",
   "status": "partial",
   "theorems": [
    "C49_decoder_returns_partial",
    "C49_prelude_decoder_returns_partial",
    "C49_crashes_refuted"
   ],
   "note": "proved for programs that pass the decidable check of Safe.v (intervals for lengths and arithmetic, guarded recursion, elements that read a byte); the full statement is refuted: length fields, arithmetic, unguarded recursion, empty elements and truncated terminators crash decoders of accepted programs"
  },
  {
   "property": "C50",
   "status": "partial",
   "theorems": [
    "C50_nbt_roundtrip_partial",
    "C50_nbt_file_partial",
    "C50_nbt_shipped_refuted",
    "C50_nbt_byte_arrays_refuted",
    "C50_nbt_negative_count_refuted"
   ],
   "note": "The shipped text is rejected by the compiler (refuted: a missing comma, then an unknown type, then signed array lengths). For the text with these three corrections, writing and reading are proved for every tree without byte arrays (which the specification has no variant for: refuted) and for whole files; negative counts panic (refuted)."
  },
  {
   "property": "C51",
   "status": "proved",
   "theorems": [
    "C51_png",
    "C51_packet"
   ],
   "note": "Compiler model run on the texts; round trip for every value; for PNG the accepted language is exactly the format; both decoders return on every input."
  },
  {
   "property": "C52",
   "status": "partial",
   "theorems": [
    "C52_compiler_never_panics_partial",
    "C52_parser_never_panics",
    "C52_parsed_items_have_values",
    "C52_crashes_refuted"
   ],
   "note": "for texts without array indexing, without too many call arguments and without two-digit hexadecimal escapes; all three really crash the compiler (C52_crashes_refuted). Termination is C22/C29."
  },
  {
   "property": "C53",
   "status": "partial",
   "theorems": [
    "C53_rfc4648",
    "C53_any_chunks",
    "C53_inverse",
    "C53_only_encodings",
    "C53_protocols_roundtrip_partial",
    "C53_message",
    "C53_following_fields_refuted"
   ],
   "note": "The transform itself in full; protocols in the checked subset, for all valid values (ValidSpec.v, including base64-transformed fields: C53_valid_nonvacuous). Fields after a base64 field are lost, the reader takes everything to the end of the input (refuted)."
  },
  {
   "property": "C54",
   "status": "partial",
   "theorems": [
    "C54_success",
    "C54_errors",
    "C54_other_files",
    "C54_no_host",
    "C54_included_partial",
    "C54_names_apart",
    "C54_failed_rustfmt_refuted",
    "C54_absolute_name_refuted",
    "C54_short_write_refuted"
   ],
   "note": "Proved for every host; include_spec! finds the file if the name is a relative path. Refuted: a failing rustfmt gives Ok and an empty file, an absolute name leaves OUT_DIR, a full device leaves half a file."
  },
  {
   "property": "C55",
   "status": "partial",
   "theorems": [
    "C55_derive_list",
    "C55_derives_accepted_partial",
    "C55_compile_defaults_partial",
    "C55_spec_defaults_partial",
    "C55_float_refuted",
    "C55_default_item_refuted",
    "C55_no_variants_refuted",
    "C55_path_derive_refuted",
    "C55_duplicate_field_refuted",
    "C55_keyword_refuted"
   ],
   "note": "The derive lists in full; acceptance for programs whose type names are all generated and whose enums start with a valued item. Refuted: floats with the default options (Eq), a lone default item, a tagged container without variants, derives given by path, nested fields of one name, Rust keywords."
  },
  {
   "property": "C56",
   "status": "partial",
   "theorems": [
    "C56_decoder_generated",
    "C56_encoder_generated_partial",
    "C56_encoder_without_blen",
    "C56_conditional_padding_refuted",
    "C56_conditional_variants_refuted",
    "C56_blen_refuted",
    "C56_blen_again_refuted"
   ],
   "note": "Decoders: exact condition. Encoders: a sufficient condition (a blen of an earlier container can also work, C56_blen_again_refuted). The unconditional claim is refuted for conditional padding-only containers, conditional tagged containers with only conditional variants and three uses of blen. Types declared in the root file; names like generated padding excluded."
  },
  {
   "property": "C57",
   "status": "partial",
   "theorems": [
    "C57_prefix",
    "C57_reported",
    "C57_any_outcome",
    "C57_same_encoder",
    "C57_base64_reported_refuted"
   ],
   "note": "Prefix and outcome proved for every program, value and capacity, with an arbitrary choice of what transforms write on drop; error reporting proved when they hold nothing back and refuted for base64. Transforms are taken to hand on their output at flush/drop only (never earlier), and gzip and the async encoders are not modelled."
  },
  {
   "property": "C58",
   "status": "partial",
   "theorems": [
    "C58_never_invented",
    "C58_never_invented_error",
    "C58_same_or_reported",
    "C58_delivered_partial",
    "C58_prelude",
    "C58_prelude_delivered_partial",
    "C58_returning_programs",
    "C58_end_of_input_refuted"
   ],
   "note": "For every program; on the longer input the model's loops may be judged stuck (Hang), excluded for the programs of C49 (C58_returning_programs). Transforms on a failing reader either have all they need or report the failure (their plaintext is not handed on piece by piece). C58_delivered_partial covers types that never ask for the end of their input."
  },
  {
   "property": "C59",
   "status": "partial",
   "theorems": [
    "C59_encoder_returns_partial",
    "C59_prelude_encoder_returns_partial",
    "C59_failing_writer_partial",
    "C59_crashes_refuted"
   ],
   "note": "Proved for every value of the generated type of any program that passes a decidable check (lengths computed with len, interval-safe arithmetic), also with a writer that fails; refuted in general by six accepted programs. Missing: safe programs the check rejects, e.g. counted arrays whose count a caller always sets right."
  },
  {
   "property": "C60",
   "status": "proved",
   "theorems": [
    "C60_model",
    "C60_same_text",
    "C60_same_encoder"
   ],
   "note": "The instruction lists do differ (C60_nonvacuous); the emitted text does not. It is the only hash container whose iteration order reaches generation."
  },
  {
   "property": "C61",
   "status": "partial",
   "theorems": [
    "C61_stream_partial",
    "C61_unambiguous_partial",
    "C61_cut_partial",
    "C61_prelude_stream_partial"
   ],
   "note": "Proved for every program in the checked subset of C31 (prog_ok) and every list of messages of any length whose values the checked encoding accepts (every valid value does, ValidSpec.v); the cut is proved for types whose extent the declaration determines (local, C24). Missing: programs outside the checked subset."
  },
  {
   "property": "C62",
   "status": "proved",
   "theorems": [
    "C62_encoded_size",
    "C62_decoded_size",
    "C62_too_short",
    "C62_fixed_size",
    "C62_prelude_sizes"
   ],
   "note": "the range is computed from the declaration alone (Sizes.v); foreign types enter by their own ranges (world_sizes), which are proved for the prelude; array lengths that are not number literals, transforms and length-prefixed strings count as open"
  },
  {
   "property": "C63",
   "status": "partial",
   "theorems": [
    "C63_same_format",
    "C63_additions",
    "C63_front_end_partial"
   ],
   "note": "Generated code: proved for all pairs of programs the generator emits code for. Front end: proved for what is read back of a declaration (casts are not shown), for programs without imports and fields not named like padding."
  },
  {
   "property": "C64",
   "status": "partial",
   "theorems": [
    "C64_bounded_depth",
    "C64_in_order",
    "C64_recursive_refuted"
   ],
   "note": "Proved in full for non-recursive types; the refutation shows that recursive types have no such bound (a user who expects one, e.g. not to overflow the stack on hostile input, cannot rely on it)."
  },
  {
   "property": "C65",
   "status": "partial",
   "theorems": [
    "C65_no_larger",
    "prelude_world_small",
    "b64_world_small",
    "C65_shipped_no_larger",
    "C65_elements_refuted"
   ],
   "note": "For the generator model over every compiled program. Leaves of the value are counted, not array lengths: C65_elements_refuted shows an array of elements that take no bytes is as long as a 4-byte length field says. Worlds whose transforms expand (gzip, unmodelled) are excluded by small_world; the shipped foreign types, xor and base64 meet it."
  },
  {
   "property": "C66",
   "status": "partial",
   "theorems": [
    "C66_compile_time",
    "C66_generated_refuted"
   ],
   "note": "Proved for everything evaluated while compiling. False of what generated code evaluates: the generated code writes the name of a constant that it never defines (so it does not compile; the model makes such an evaluation fail), C66_generated_refuted gives two accepted texts that differ only in a constant written out."
  },
  {
   "property": "C67",
   "status": "proved",
   "theorems": [
    "C67_same_program",
    "C67_any_layout",
    "C67_tidy",
    "C67_tidied"
   ],
   "note": "Texts with the same tokens, comments left out, are analysed to the same result, program or error, whatever the layout of the imported files. C67_any_layout: any spelling of these tokens with white space after each and comments anywhere is such a text (tight layouts come under C67_same_program). The positions carried by error messages are not modelled, so equal errors means equal up to positions."
  },
  {
   "property": "C68",
   "status": "proved",
   "theorems": [
    "C68_write",
    "C68_read",
    "C68_concatenation"
   ],
   "note": "For every program whose declarations compile (prog_ok implies it), in a world whose foreign readers leave a suffix (the prelude does). Stated with encode and decode of the generated code on both sides; equal as results, failures included. The value of the struct lists exactly the fields, as the generated Rust struct does. Arrays, nested containers and attributes other than conditions are outside the statement (C31, C34, C38-C42 treat them)."
  },
  {
   "property": "C69",
   "status": "proved",
   "theorems": [
    "C69_old_reader",
    "C69_same_refusal",
    "C69_old_message",
    "C69_new_message"
   ],
   "note": "Both versions are declarations of one program (C63 transfers this to two programs). C69_new_message: for messages of the generated encoder, with the valid values and program subset of C31. Containers nested in other types by reference are not covered by compatibility (what follows them would be misread), nor is a declared length on the container itself."
  },
  {
   "property": "C70",
   "status": "proved",
   "theorems": [
    "C70_tagged_read",
    "C70_tagged_write",
    "C70_enum_read",
    "C70_enum_write"
   ],
   "note": "Both versions are declarations of one program without transforms on the type itself. selected is the first variant whose condition holds. A value of the old type is turned into one of the new by its type name only (retag, reenum), as a Rust program would rebuild it."
  },
  {
   "property": "C71",
   "status": "proved",
   "theorems": [
    "C71_read",
    "C71_write",
    "C71_scope"
   ],
   "note": "Both forms are declarations of one program (C63 transfers this to two programs). Equalities of results of the generated code, all failures included. C71_scope: the source names of grouped fields are visible inside the group only."
  },
  {
   "property": "C72",
   "status": "proved",
   "theorems": [
    "C72_read",
    "C72_write",
    "C72_array_read",
    "C72_array_write",
    "C72_rest_read",
    "C72_rest_write"
   ],
   "note": "For declarations without transforms. Arrays with fewer or more values than the count are C34. Arrays of scalars, enums and bitfields are read in one piece (C34)."
  }
 ]
}