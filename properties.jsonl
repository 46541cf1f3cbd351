{"id": "C01", "title": "Scalar fields round-trip in both byte orders", "statement": "Encoding any in-range value of any of the ten scalar types (u8..u128, i8..i128), big- or little-endian, followed by any bytes, and decoding it back yields the same value and leaves exactly the following bytes; the encoding is always the type's declared number of bytes.", "quantifier": "every scalar type, both byte orders, every in-range value, every trailing byte string", "why_tests_cant": "2^128 values per type; a test samples a handful and would miss sign or carry boundary errors", "anchors": ["protospec-build/src/compiler/encoder.rs:encode_instructions (PrimitiveEncode/EncodePrimitive)", "protospec-build/src/compiler/decoder.rs:decode_instructions (DecodePrimitive)", "protospec-build/src/ast/types/scalar.rs:ScalarType::size"]}
{"id": "C02", "title": "Scalar decoding is a bijection and respects byte order", "statement": "Every byte string of a scalar's width decodes to an in-range value whose re-encoding is that same byte string; the little-endian encoding is the big-endian one reversed; the big-endian bytes read as base-256 digits give the value's unsigned image. Fewer bytes than the width is an error.", "quantifier": "every scalar type, every byte string", "why_tests_cant": "the domain is all byte strings; wrong order on one width or a missed truncation error passes symmetric round-trip tests", "anchors": ["protospec-build/src/compiler/decoder.rs:decode_instructions", "protospec-build/src/compiler/encoder.rs:encode_instructions", "protospec-build/src/ast/types/scalar.rs"]}
{"id": "C03", "title": "Compile-time integer arithmetic is exact or refused", "statement": "Evaluating +, -, *, /, %, shifts, bitwise and comparison operators on two constants of the same integer type yields a result in range of that type: the mathematically exact one for arithmetic and comparisons (one that does not fit, and division by zero, is refused, never returned wrapped), the two's-complement one for bitwise operators and shifts (a left shift drops the bits shifted out; a shift amount outside 0..bits is refused); mixed types never yield a value.", "quantifier": "every operator, every pair of constants of every integer type", "why_tests_cant": "operand space is 2^256 per operator; overflow boundaries are per type", "anchors": ["protospec-build/src/asg/expression/const_int.rs:ConstInt"]}
{"id": "C04", "title": "Integer literal parsing is exact", "statement": "An integer literal, decimal or 0x-hexadecimal, evaluates to exactly its numeric value when that fits the target type and is rejected with an error otherwise; printing any constant in decimal and parsing it returns the same constant.", "quantifier": "every digit string and every integer type", "why_tests_cant": "unbounded digit strings and per-type limits", "anchors": ["protospec-build/src/asg/expression/const_int.rs:ConstInt::parse", "protospec-build/src/semantics/convert/expression/int.rs"]}
{"id": "C05", "title": "Implicit casts never change a value", "statement": "Whenever the language allows one scalar type to be used where another is expected without an explicit cast, the inserted conversion preserves the numeric value for every value; explicit casts between integer types reduce modulo 2^bits into the target's range.", "quantifier": "every ordered pair of scalar types and every value of the source type", "why_tests_cant": "100 type pairs times up to 2^128 values; a single wrong pair corrupts data silently", "anchors": ["protospec-build/src/ast/types/scalar.rs:can_implicit_cast_to", "protospec-build/src/asg/expression/const_int.rs:ConstInt::cast_to", "protospec-build/src/semantics/partial_type.rs"]}
{"id": "C06", "title": "VarInt prelude types round-trip", "statement": "Encoding any value of v8/v16/v32/v64/v128 and decoding it yields that value and leaves exactly the following bytes.", "quantifier": "every varint width, every value, every trailing byte string", "why_tests_cant": "bugs depend on the magnitude of the value: small test values all pass", "anchors": ["protospec-build/src/prelude/var.rs:VarInt"]}
{"id": "C07", "title": "VarInt encodings are minimal-length groups of seven bits", "statement": "The varint encoding of a value is non-empty, every byte but the last has the continuation bit set and the last has it clear, the low seven bits little-endian spell the value's unsigned image, and the length is the least possible.", "quantifier": "every width and value", "why_tests_cant": "must hold for every magnitude, including negative values", "anchors": ["protospec-build/src/prelude/var.rs:VarInt"]}
{"id": "C08", "title": "utf8 prelude strings round-trip", "statement": "A string encoded with the null-terminated utf8 type and decoded yields the same string and leaves the following bytes; with an explicit byte length it does so whenever the string has that many bytes.", "quantifier": "every string, every trailing byte string", "why_tests_cant": "depends on string content (embedded NUL) and on what follows in the stream", "anchors": ["protospec-build/src/prelude/utf8.rs"]}
{"id": "C09", "title": "utf16 prelude strings round-trip", "statement": "A string encoded by the utf16 type and decoded with its code-unit count yields the same string.", "quantifier": "every string, on every host byte order", "why_tests_cant": "depends on the host's endianness and on string content (surrogates)", "anchors": ["protospec-build/src/prelude/utf16.rs"]}
{"id": "C10", "title": "pad() computes the least padding", "statement": "pad(base, p) is the least n such that base+n is a multiple of p, always less than p, for every non-zero p; p = 0 is an error.", "quantifier": "every base and alignment in u64", "why_tests_cant": "2^128 argument pairs", "anchors": ["protospec-build/src/prelude/pad.rs"]}
{"id": "C11", "title": "bits() counts the set bits and sum() adds exactly", "statement": "bits(x) equals the number of one bits in the two's-complement image of x for every integer type; sum(xs) is the arithmetic sum of the elements when it fits in u64 and otherwise is an error, independent of element order.", "quantifier": "every value / every array", "why_tests_cant": "unbounded arrays and 2^128 values", "anchors": ["protospec-build/src/prelude/bits.rs", "protospec-build/src/prelude/sum.rs"]}
{"id": "C12", "title": "Enums round-trip and reject unknown tags", "statement": "For every enum definition with distinct values, each named variant encodes as its declared value and decodes back to itself; an undeclared value decodes to the default variant carrying it if there is one and otherwise is an error; decode is total on declared values.", "quantifier": "every enum definition (any size, any backing scalar), every tag value", "why_tests_cant": "ranges over all definitions and all tags, including collisions between the default's payload and named values", "anchors": ["protospec-build/src/compiler/mod.rs:generate_enum", "protospec-build/src/compiler/encoder.rs", "protospec-build/src/compiler/decoder.rs"]}
{"id": "C13", "title": "Enum and bitfield automatic values follow the declaration", "statement": "An item without an explicit value takes the last explicit value plus its distance (enum) or shifted left by its distance (bitfield); an enum's default arm may only be last; a value out of range of the backing scalar is an error not a wrapped value.", "quantifier": "every item list, any length and any mixture of explicit and automatic items", "why_tests_cant": "depends on the position and history of explicit items over unbounded lists", "anchors": ["protospec-build/src/semantics/convert/type_/enum_.rs", "protospec-build/src/semantics/convert/type_/bitfield.rs"]}
{"id": "C14", "title": "Bitfields round-trip and reject undeclared bits", "statement": "Every combination of declared flags encodes to the or of their values and decodes back to the same combination; a value with an undeclared bit is rejected when decoding.", "quantifier": "every bitfield definition, every flag combination and every raw value", "why_tests_cant": "2^bits combinations for every definition", "anchors": ["protospec-build/src/compiler/mod.rs:generate_bitfield", "protospec-build/src/compiler/decoder.rs"]}
{"id": "C15", "title": "Tokenization is lossless and total", "statement": "Writing out any token sequence with whitespace between tokens and tokenizing it again yields the same tokens; tokenizing any input terminates with tokens or a positioned error; the produced tokens cover the input in order without inventing or dropping characters other than whitespace and comments.", "quantifier": "every token sequence and every input byte string", "why_tests_cant": "unbounded input strings; maximal-munch ambiguities between adjacent operators", "anchors": ["protospec-build/src/tokenizer.rs:gobble", "protospec-build/src/tokenizer.rs:tokenize"]}
{"id": "C16", "title": "Operators are tokenized by maximal munch", "statement": "At every position the tokenizer takes the longest operator that matches, and identifiers/keywords/integers extend as far as their character class allows.", "quantifier": "every input string", "why_tests_cant": "the property is about every possible continuation of every operator prefix", "anchors": ["protospec-build/src/tokenizer.rs:gobble"]}
{"id": "C17", "title": "String literals round-trip through escapes", "statement": "Escaping any byte string as a string literal and tokenizing it yields the same bytes.", "quantifier": "every byte string", "why_tests_cant": "every combination of escape characters, hex escapes and terminators", "anchors": ["protospec-build/src/tokenizer.rs:gobble (string literals)"]}
{"id": "C18", "title": "Token positions identify the source text", "statement": "The line number attached to each token is one plus the number of newlines before it, and its column range is the range of columns it occupies.", "quantifier": "every input string, any number of lines, comments", "why_tests_cant": "depends on the whole preceding text", "anchors": ["protospec-build/src/tokenizer.rs:tokenize", "protospec-build/src/tokenizer.rs:Span"]}
{"id": "C19", "title": "Expressions parse back to what was written", "statement": "Every expression tree, printed with parentheses only where the documented precedence table requires them, parses back to the same tree, consuming exactly its own tokens.", "quantifier": "every expression tree of any depth", "why_tests_cant": "all trees; the interaction of 12 precedence levels cannot be enumerated", "anchors": ["protospec-build/src/parser/expression/mod.rs", "protospec-build/src/parser/expression/primary.rs", "protospec-build/src/parser/expression/cast.rs", "SPEC.md"]}
{"id": "C20", "title": "Binary operators group left and by precedence", "statement": "For any two binary operators a op1 b op2 c parses as (a op1 b) op2 c when op1 binds at least as tightly as op2 and as a op1 (b op2 c) otherwise; a cast binds tighter than all of them except ?:, with which it shares its level, and unary operators tighter still, though looser than indexing and member access.", "quantifier": "every pair of operators, every operand expression", "why_tests_cant": "all operand expressions", "anchors": ["protospec-build/src/parser/expression/*.rs"]}
{"id": "C21", "title": "Declarations and types parse back to what was written", "statement": "Every program AST (type, const, import and ffi declarations, containers, enums, bitfields, arrays, fields with conditions, transforms and calculations) printed in the concrete syntax parses back to the same AST with no tokens left over; trailing commas are accepted in every comma list and do not change the result.", "quantifier": "every program AST", "why_tests_cant": "unbounded nesting of types, fields and expressions", "anchors": ["protospec-build/src/parser/declaration/*.rs", "protospec-build/src/parser/types/*.rs", "protospec-build/src/parser/field.rs", "protospec-build/src/parser/program.rs"]}
{"id": "C22", "title": "The type compatibility relations are consistent", "statement": "Assignability is reflexive; assignable implies castable; scalar widening is a partial order (reflexive, transitive, antisymmetric) and never joins types of different signedness; inferring a partial type from a type accepts that type back.", "quantifier": "every type (any nesting of arrays, containers, refs)", "why_tests_cant": "types are recursive; all pairs and triples", "anchors": ["protospec-build/src/asg/types/mod.rs", "protospec-build/src/semantics/partial_type.rs", "protospec-build/src/ast/types/scalar.rs"]}
{"id": "C23", "title": "A well-typed constant expression evaluates to its declared type", "statement": "If semantic analysis accepts an expression for an expected type, evaluating it at compile time yields a value of exactly that type or a reported arithmetic error; it never gets stuck on a type mismatch.", "quantifier": "every expression tree, every expected type", "why_tests_cant": "type soundness is by induction on all expressions", "anchors": ["protospec-build/src/semantics/convert/expression/*.rs", "protospec-build/src/compiler/expr.rs:eval_const_expression"]}
{"id": "C24", "title": "Constant evaluation and generated code agree", "statement": "The value computed for an expression at compile time is the value the generated Rust expression computes at run time.", "quantifier": "every accepted expression over constants", "why_tests_cant": "agreement of two evaluators over all expressions", "anchors": ["protospec-build/src/compiler/expr.rs:eval_const_expression", "protospec-build/src/compiler/expr.rs:emit_expression"]}
{"id": "C25", "title": "Type arguments are checked against the declaration", "statement": "A type reference is accepted exactly when it supplies at least the required and at most the declared number of arguments; a required parameter after an optional one is rejected; the accepted reference passes every supplied argument in order and the defaults for the rest.", "quantifier": "every parameter list and every argument list", "why_tests_cant": "all combinations of required/optional counts and supplied counts", "anchors": ["protospec-build/src/semantics/convert/type_/type_ref.rs", "protospec-build/src/compiler/encoder.rs:EncodeRef", "protospec-build/src/compiler/decoder.rs:DecodeRef"]}
{"id": "C26", "title": "Function and transform arguments are checked against the declaration", "statement": "A call is accepted exactly when the number of arguments lies between the required and the declared number, never crashing the compiler, and arguments are bound in order.", "quantifier": "every parameter list and argument list", "why_tests_cant": "all combinations of counts", "anchors": ["protospec-build/src/semantics/convert/ffi_arguments.rs"]}
{"id": "C27", "title": "Recursive types are detected", "statement": "A type is marked possibly-recursive exactly when it can reach itself through its fields; the generated async reader and writer of a type that can call itself are emitted with boxed futures precisely then.", "quantifier": "every program, i.e. every type graph", "why_tests_cant": "reachability over arbitrary graphs", "anchors": ["protospec-build/src/asg/program.rs:scan_cycles", "protospec-build/src/asg/types/mod.rs:get_indirect_contained_fields"]}
{"id": "C28", "title": "Definitions are unique and lookups return the right one", "statement": "Declaring the same type, const or container field name twice is an error; in an accepted program every name resolves to the one declaration that introduced it, fields shadowing arguments shadowing constants.", "quantifier": "every declaration list and lookup", "why_tests_cant": "all interleavings of declarations and names", "anchors": ["protospec-build/src/semantics/convert/program/mod.rs", "protospec-build/src/semantics/convert/program/const_.rs", "protospec-build/src/semantics/convert/type_/container.rs", "protospec-build/src/semantics/convert/expression/var_ref.rs"]}
{"id": "C29", "title": "Imports terminate and are loaded once", "statement": "Loading a program terminates for every import graph, loads each file at most once, and gives each imported item the definition of that name in the imported file.", "quantifier": "every import graph, including cyclic ones", "why_tests_cant": "all graphs", "anchors": ["protospec-build/src/semantics/convert/program/import.rs", "protospec-build/src/semantics/convert/program/mod.rs", "protospec-build/src/import.rs"]}
{"id": "C30", "title": "Generated instruction streams are well scoped", "statement": "For every accepted type, the instruction sequence generated for its encoder and decoder reads only registers, streams and field references already defined in scope, and nested blocks never leak definitions used outside them.", "quantifier": "every type (any nesting)", "why_tests_cant": "register numbering is threaded through mutually recursive generators over all types", "anchors": ["protospec-build/src/coder/decode/*.rs", "protospec-build/src/coder/encode/*.rs"]}
{"id": "C31", "title": "Every encodable value round-trips through its container type", "statement": "For every type built from scalars, bools, enums, bitfields, arrays, containers, conditions and references and every value of it whose encoding succeeds, decoding the produced bytes followed by anything yields the same value and leaves exactly what followed.", "quantifier": "every type definition and every value of it, every trailing byte string", "why_tests_cant": "types nest without bound, values are arbitrary", "anchors": ["protospec-build/src/coder/encode/mod.rs", "protospec-build/src/coder/decode/mod.rs", "protospec-build/src/compiler/encoder.rs", "protospec-build/src/compiler/decoder.rs"]}
{"id": "C32", "title": "The decoder consumes only the type's own bytes and re-encodes them", "statement": "When decoding succeeds, the bytes consumed are exactly a prefix of the input and the decoded value re-encodes (where encodable) to that prefix, so formats without redundant representations are bijective.", "quantifier": "every type, every input byte string", "why_tests_cant": "all byte strings", "anchors": ["protospec-build/src/coder/decode/mod.rs", "protospec-build/src/compiler/decoder.rs"]}
{"id": "C33", "title": "Truncated input is always rejected", "statement": "Decoding any proper prefix of a valid encoding of a self-delimiting type reports an error instead of a value.", "quantifier": "every self-delimiting type, value and truncation point", "why_tests_cant": "all truncation points of all values of all types", "anchors": ["protospec-build/src/compiler/decoder.rs", "protospec-build/src/coder/decode/*.rs"]}
{"id": "C34", "title": "Length-prefixed arrays carry exactly the declared number of elements", "statement": "Decoding an array with length n yields exactly n elements in stream order; encoding an array whose length differs from the declared expression never produces output; order is preserved.", "quantifier": "every element type, every length and value list", "why_tests_cant": "all lengths, all element types", "anchors": ["protospec-build/src/coder/encode/array.rs", "protospec-build/src/coder/decode/array.rs"]}
{"id": "C35", "title": "Rest-of-stream arrays consume everything or fail", "statement": "A [..] array decodes all remaining bytes into consecutive elements, and an incomplete final element is an error.", "quantifier": "every element type and every input", "why_tests_cant": "inputs of every length modulo the element size", "anchors": ["protospec-build/src/compiler/decoder.rs (DecodePrimitiveArray)", "protospec-build/src/coder/decode/array.rs", "README.md"]}
{"id": "C36", "title": "Terminated arrays stop exactly at the terminator", "statement": "A [..\"X\"] array round-trips whenever no element's encoding begins with (or creates) the terminator, decoding terminates on every input, and a missing terminator is an error.", "quantifier": "every terminator, element list and input", "why_tests_cant": "overlaps between terminator and data; every truncation", "anchors": ["protospec-build/src/compiler/decoder.rs (Loop terminator)", "protospec-build/src/coder/decode/array.rs", "protospec-build/src/coder/encode/array.rs"]}
{"id": "C37", "title": "Conditional fields are present exactly when the condition holds", "statement": "A field with a condition is read and written iff the condition evaluates to true over the already coded fields; encoding a value whose presence disagrees with a true condition is an error; a false condition writes no bytes.", "quantifier": "every condition, container and value", "why_tests_cant": "all conditions over all field values", "anchors": ["protospec-build/src/coder/encode/field.rs", "protospec-build/src/coder/decode/field.rs"]}
{"id": "C38", "title": "Length-constrained containers stay inside their length", "statement": "A container with a length reads at most that many bytes, fields after it start exactly that many bytes later, and encoding contents of a different size is rejected.", "quantifier": "every constrained container and input", "why_tests_cant": "all lengths vs contents", "anchors": ["protospec-build/src/coder/decode/container.rs", "protospec-build/src/coder/encode/container.rs"]}
{"id": "C39", "title": "Calculated fields always match the data", "statement": "A calculated field (len, blen or any expression) encodes the value computed from the other fields irrespective of what the user stored there, in its declared position, so that decoding reproduces it.", "quantifier": "every container with any number of calculated fields, every value", "why_tests_cant": "all arrangements of calculated fields and their targets", "anchors": ["protospec-build/src/coder/encode/container.rs:encode_container_items", "protospec-build/src/prelude/blen.rs", "protospec-build/src/prelude/len.rs"]}
{"id": "C40", "title": "Transform pipelines are inverted in the right order", "statement": "For a field with transforms T1 -> T2 -> ... -> Tn (each with its own inverse), encoding then decoding yields the original value, applying the transforms left to right when serializing and right to left when deserializing.", "quantifier": "every number and choice of transforms and conditions", "why_tests_cant": "all pipelines of any length", "anchors": ["protospec-build/src/coder/encode/field.rs", "protospec-build/src/coder/decode/field.rs", "README.md"]}
{"id": "C41", "title": "Tagged enums choose the first matching variant both ways", "statement": "Decoding a tagged enum reads the first variant whose condition holds and encoding writes exactly the variant the value holds and fails when that variant's condition does not hold, so encode/decode agree.", "quantifier": "every variant list, argument and value", "why_tests_cant": "all condition combinations", "anchors": ["protospec-build/src/coder/encode/container.rs", "protospec-build/src/coder/decode/container.rs"]}
{"id": "C42", "title": "Padding directives skip exactly what was written", "statement": ".pad: n writes n zero bytes and reads exactly n bytes, so the fields after it are aligned; insertion never alters or drops another field.", "quantifier": "every container with any number of pads and any field names", "why_tests_cant": "name collisions and counts across all containers", "anchors": ["protospec-build/src/semantics/convert/type_/container.rs", "protospec-build/src/coder/encode/field.rs", "protospec-build/src/coder/decode/field.rs"]}
{"id": "C43", "title": "A container keeps exactly its declared items", "statement": "The typed container has the declared items, in order, under distinct names, each with its own type, condition, transforms and calculation; conditions and lengths see only earlier fields, calculations see all; nothing is added, dropped or reordered.", "quantifier": "every container body, with any nesting", "why_tests_cant": "all bodies and nestings of containers, enums, bitfields and arrays", "anchors": ["protospec-build/src/semantics/convert/type_/container.rs", "protospec-build/src/semantics/convert/field.rs", "protospec-build/src/semantics/convert/type_/*.rs"]}
{"id": "C44", "title": "Declaration order of types is irrelevant", "statement": "Permuting the type declarations of a program changes neither whether it is accepted nor the meaning of any type.", "quantifier": "every program and every permutation of its declarations", "why_tests_cant": "all permutations of all programs", "anchors": ["protospec-build/src/semantics/convert/program/mod.rs", "protospec-build/src/semantics/convert/program/type_.rs"]}
{"id": "C45", "title": "Decoding does not depend on how the input arrives", "statement": "The value a generated decoder returns and the input it leaves depend only on the bytes of the input, not on the portions in which the reader delivers them.", "quantifier": "every program, every input, every way of splitting it into portions", "why_tests_cant": "in-memory test inputs always arrive in one piece; the number of ways to split an input is exponential in its length", "anchors": ["protospec-build/src/compiler/decoder.rs:373-430"]}
{"id": "C46", "title": "len() measures the data it is applied to", "statement": "A field calculated as len(x) is written as the number of elements of x when x is an array, and as the length x has on the wire (the length its type's argument means) when x is a string, whatever value the message being encoded stores in that field; a message 'n: u64 = len(s), s: T(n)' or 'n: u64 = len(s), s: T[n]' can therefore be decoded, and ends where its data ends.", "quantifier": "every scalar element type and byte order, every array and every string of Unicode scalar values of less than 2^64 bytes, every stored value of the calculated field, every following input", "why_tests_cant": "Strings are unbounded and the byte length differs from the character count only outside ASCII; tests use a handful of short literals.", "anchors": ["protospec-build/src/prelude/len.rs LenFunction::len", "protospec-build/src/prelude/utf8.rs", "protospec-build/src/prelude/utf16.rs", "protospec-build/src/coder/encode/container.rs"]}
{"id": "C47", "title": "Arguments passed to a type are the ones its body sees", "statement": "When a declared type is encoded or decoded with arguments, a required parameter is its argument, an optional parameter is its argument if one is supplied and otherwise the default, computed from the parameters before it; arguments that do not fit are refused; and a reference to the type from another type passes the arguments the same way.", "quantifier": "every program, every type with parameters, every argument list, every default expression, every input and value", "why_tests_cant": "The number, order and defaults of parameters and the program around them are unbounded.", "anchors": ["protospec-build/src/compiler/mod.rs prepare_impls", "protospec-build/src/coder/decode/field.rs decode_field (Type::Ref)", "protospec-build/src/coder/encode/field.rs", "protospec-build/src/compiler/decoder.rs Instruction::DecodeRef"]}
{"id": "C48", "title": "Decoded values are values of the generated data types", "statement": "Whatever bytes a generated decoder is given, if it returns a value then that value is one the generated Rust type of the declaration can have: every field of the struct, in order and with its declared type; Option exactly for fields under a condition; vectors of the declared element type; integers in their range; only declared enum variants; strings that are valid Unicode.", "quantifier": "every program, every byte string (shorter than 2^63), every argument list, every recursion depth", "why_tests_cant": "the data definitions and the reader are produced by two different parts of the compiler (compiler/mod.rs and coder/decode); that they agree has to hold for every combination of nesting, conditions, arrays and references", "anchors": ["protospec-build/src/compiler/mod.rs: emit_type_ref, generate_container, generate_container_fields_recur, compile_program", "protospec-build/src/coder/decode", "protospec-build/src/compiler/decoder.rs"]}
{"id": "C49", "title": "Decoders return on every input", "statement": "Whatever bytes a generated decoder is given, it returns: a value or an error, never a panic (overflow, division by zero, capacity overflow) and never an endless loop or endless recursion, and given a deep enough stack the answer does not depend on the stack.", "quantifier": "every program, every byte string (shorter than 2^63), every argument list, every stack depth from some depth on", "why_tests_cant": "the bytes come from a peer; no set of test inputs shows that no other input panics or loops, and termination of recursive types is a statement about all input lengths", "anchors": ["protospec-build/src/compiler/decoder.rs: emit_decode instructions", "protospec-build/src/compiler/expr.rs: emit_expression", "protospec-build/src/coder/decode"]}
{"id": "C50", "title": "The shipped NBT specification reads and writes NBT", "statement": "The NBT specification that ships as the project's example is accepted by the compiler, and the code generated from it writes every NBT tree (numbers, strings, lists, compounds, arrays, nested to any depth) as the NBT wire format says and reads every such encoding back as the same tree, for single tags and for whole files.", "quantifier": "every NBT tree of any depth and size within the format's own limits, every continuation of the input, every recursion depth at least the tree's own", "why_tests_cant": "trees nest without bound and every payload depends on a tag read before it; sample files exercise a handful of shapes", "anchors": ["examples/nbtview/spec/nbt.pspec", "examples/nbtview/src/nbtview.rs: main", "protospec-build/src/compiler/decoder.rs", "protospec-build/src/compiler/encoder.rs", "protospec-build/src/coder"]}
{"id": "C51", "title": "The PNG and packet specifications of the test suite mean their formats", "statement": "The PNG specification and the length-prefixed packet specification in the integration tests are accepted; generated code writes every value as the format's bytes and reads them back; whatever the PNG decoder accepts is a signature followed by well-formed chunks and nothing else; and both decoders return, without panic or endless loop, on every byte string.", "quantifier": "every PNG file and every packet of any size, and every byte string shorter than 2^63 bytes", "why_tests_cant": "the tests feed a few literal files; that every other file round-trips and that malformed bytes never crash the reader are statements about all byte strings", "anchors": ["protospec-build/tests/compiler/integration/png.rs", "protospec-build/tests/compiler/integration/user_submission1.rs", "protospec-build/src/compiler/decoder.rs", "protospec-build/src/compiler/encoder.rs"]}
{"id": "C52", "title": "The compiler does not crash on its input", "statement": "Tokenizing, parsing and analysing a specification, and everything it imports, returns an analysed program or a diagnostic; no unwrap, expect, slice or index in the compiler's front end panics because of what the text says.", "quantifier": "every source text, every import resolver whose own files and foreign objects are well behaved, at any nesting depth", "why_tests_cant": "each panic needs one particular combination of declarations; tests try a few texts, the claim is about all of them", "anchors": ["protospec-build/src/tokenizer.rs", "protospec-build/src/parser", "protospec-build/src/semantics/convert", "protospec-build/src/asg"]}
{"id": "C53", "title": "The base64 transform writes RFC 4648 text and reads it back", "statement": "A field declared with the base64 transform is written as the RFC 4648 base64 text of the bytes it would have without the transform, whatever sizes the field is written in; reading returns the same value; and the fields that follow are written and read after it.", "quantifier": "every byte string, every way of splitting it into writes, every protocol using the transform, every value", "why_tests_cant": "padding depends on the length modulo three and on where writes are split; tests cover a few lengths and one protocol", "anchors": ["protospec-build/src/prelude/base64.rs", "protospec-build/src/compiler/encoder.rs", "protospec-build/src/compiler/decoder.rs"]}
{"id": "C54", "title": "compile_spec writes the generated code where include_spec! looks, and only on success", "statement": "compile_spec returns Ok only if the specification is accepted and its generated code (as rustfmt prints it, if formatting is on) has been written to OUT_DIR/<name>.rs, the file include_spec!(name) includes; every other file is untouched. It returns an error exactly for the specifications the front end rejects, whatever the host does, and then no file changes. Specifications of different names do not overwrite each other.", "quantifier": "all specification texts, names, generators, hosts (OUT_DIR set or not, rustfmt missing, failing or producing any output, files that cannot be created or filled) and prior file contents", "why_tests_cant": "a test runs on one host with a working rustfmt and a writable OUT_DIR; the failure combinations and all names are out of reach", "anchors": ["protospec-build/src/lib.rs:62-104 rustfmt, compile_spec", "protospec-build/src/lib.rs:106-111 include_spec!"]}
{"id": "C55", "title": "Generated data types compile with the derives asked for", "statement": "The derive attribute of every generated type lists the traits of Options.struct_derives or enum_derives once each (Default written out for enums; Clone and Copy added for plain enums, Clone, Copy and Default for bitfields), every derive is one rustc accepts for the type's fields, the written-out Default builds a value of the type, and names and fields are usable as Rust identifiers without clashes.", "quantifier": "all programs, declarations and derive options", "why_tests_cant": "tests compile a handful of specifications with one set of options; whether derives type-check depends on every field type of every reachable declaration", "anchors": ["protospec-build/src/compiler/mod.rs:19-91 CompileOptions, emit_struct_derives, emit_enum_derives, emit_derives", "protospec-build/src/compiler/mod.rs:375-732 generate_container, generate_enum, generate_bitfield", "protospec-build/src/lib.rs:35-60 Options"]}
{"id": "C56", "title": "The code generators produce code for accepted declarations", "statement": "For every type declared in an accepted specification compile_program generates a decoder and an encoder instead of panicking: the decoder exactly if no condition is put on a container in which nothing has a value (only padding) or on a tagged container all of whose variants are conditional; the encoder whenever every blen(c) names a later container of the same container that has a declared length, in particular whenever blen is not used, whatever the nesting, conditions, transforms, arrays and padding.", "quantifier": "all accepted specifications, all types declared in them", "why_tests_cant": "the generators panic in the middle of the compiler on particular combinations of nesting, conditions, padding and blen; the combinations are unbounded", "anchors": ["protospec-build/src/coder/decode/mod.rs:35-75 decode_complex_type", "protospec-build/src/coder/decode/field.rs:4-115 decode_field_top, decode_field", "protospec-build/src/coder/decode/container.rs:10-150 decode_container", "protospec-build/src/coder/encode/field.rs:4-156 encode_field", "protospec-build/src/coder/encode/container.rs:59-393 encode_container_items, eval_blen_expr, blen_calls, rewrite_blen_calls"]}
{"id": "C57", "title": "Encoders report a failing writer, and it has received a prefix of the message", "statement": "Let a value's encoding be the bytes b. Calling its generated encoder with a writer that accepts k bytes and then fails delivers exactly the first k bytes of b to it: nothing is reordered, skipped or duplicated. If all of b fits, the call returns Ok; otherwise it returns the writer's error - provided no transform in use holds output back until it is dropped. For any other outcome (an encoding error, a panic) a failing writer has likewise received a prefix of what a working one would have received. With the prelude's base64 transform the proviso fails: the last group is written by the writer's Drop, which discards the error, so encode returns Ok although the message was truncated.", "quantifier": "every program, value, arguments, foreign environment, and every number k of bytes the writer accepts", "why_tests_cant": "the failure may happen at any byte of any message of any protocol, inside nested types, loops, buffers and transforms; a test picks a few failure points", "anchors": ["protospec-build/src/compiler/encoder.rs:143-148,170-427 (write_all(..)?, flush()?, drop)", "protospec-build/src/coder/encode/mod.rs Instruction::EndStream, Drop", "protospec-build/src/prelude/base64.rs:22-33", "protospec-build/src/prelude/gzip.rs"]}
{"id": "C58", "title": "Decoders never turn a reader's failure into a value", "statement": "Let a reader deliver some bytes and then return an I/O error. The generated decoder either returns that error or returns exactly what it would have returned for those bytes followed by any continuation x whatsoever: the same value with x left unread, or the same decoding error (the only other possibility being that the longer input makes it loop). In particular a broken connection is never mistaken for the end of a rest-of-stream array, string or container. If the type and the types it refers to never ask for the end of their input, the failure is invisible once all bytes of the value have been delivered. With a clean end of input instead of an error the first half is false.", "quantifier": "every program, type, arguments, foreign environment whose foreign types behave this way (proved for the prelude), all delivered bytes and all continuations", "why_tests_cant": "the failure may come after any byte of any message of any protocol and the claim compares one run with the runs on infinitely many continuations", "anchors": ["protospec-build/src/compiler/decoder.rs:16-515 (read_exact(..)?, read_to_end(..)?, fill_buf()?)", "protospec-build/src/prelude/var.rs:70-95", "protospec-build/src/prelude/utf8.rs:30-60"]}
{"id": "C59", "title": "Encoders return on every value of the generated data types", "statement": "Whatever value of its generated Rust type it is given - also values no decoder would produce - a generated encoder returns either bytes or an EncodeError; it does not panic (array indexing, arithmetic overflow) and does not recurse forever, and how deep it recurses is bounded for each value. As stated this is false: the encoder indexes a fixed-length array up to the length the expression evaluates to, which a value may exceed; a computed u8 count silently truncates; arithmetic on stored values overflows. It is true of programs where every counted array's length is a field calculated with len() of that array and the interval analysis bounds the arithmetic.", "quantifier": "every program (that passes the check), declared type, argument values in the declared ranges, and value of the generated data type", "why_tests_cant": "values range over an infinite recursive data type, and only specific combinations (length mismatches, boundary integers) crash", "anchors": ["protospec-build/src/compiler/encoder.rs:38-470", "protospec-build/src/compiler/expr.rs:253-420", "protospec-build/src/compiler/mod.rs:308-732"]}
{"id": "C60", "title": "Generated code does not depend on hash order", "statement": "Running the generator again on the same protocol gives the same code: the iteration order of the hash set in which the encoder's generator collects the fields named in blen() calls, which changes from run to run, influences neither whether generation succeeds nor the text that is emitted, nor therefore what the generated encoders do.", "quantifier": "every program and declaration, every choice of an iteration order for every set the generator makes", "why_tests_cant": "the order is chosen at random in every process and differs only for formulas with several blen() calls; a test sees one order", "anchors": ["protospec-build/src/coder/encode/container.rs:75-99, 101-171, 282-393 (HashSet in blen_calls)", "protospec-build/src/compiler/encoder.rs:41-52, 444-454"]}
{"id": "C61", "title": "Messages sent one after another are received one after another", "statement": "If a program of generated code encodes valid values v1,...,vn, of any mix of the program's types, one after another on one writer, then decoding the same types one after another from those bytes, followed by any further bytes, yields exactly v1,...,vn and leaves exactly the further bytes on the reader. Hence two different lists of valid messages of the same types never have the same bytes. If the stream is cut anywhere, the messages that lie wholly before the cut are received unchanged and the next decode call ends in an end-of-input error: never a wrong value. (A type that by its declaration takes everything to the end of the input can only come last.)", "quantifier": "every program, every list of messages of any length and any mix of its types, every continuation of the stream and every point at which it is cut", "why_tests_cant": "message lists, programs and cut points are unbounded; a test tries a few values one at a time, on a stream that ends after them", "anchors": ["protospec-build/src/compiler/encoder.rs", "protospec-build/src/compiler/decoder.rs", "protospec-build/src/coder/encode", "protospec-build/src/coder/decode", "protospec-build/src/prelude"]}
{"id": "C62", "title": "Encodings have the size the declaration implies", "statement": "Each declaration implies a least and, unless it has an open part (strings, counted or unbounded arrays, transforms), a largest number of bytes: scalars, floats, bools, enums and bitfields take the size of their type, arrays of n elements n times the element, pads their length, a conditional field nothing or its size, containers the sum of their fields, tagged choices the size of one variant. Every encoding the generated encoder produces, for any value, has a length in that range; every successful decode takes a number of bytes in that range and leaves the rest on the reader; an input shorter than the least size is never decoded to a value; a type of fixed layout always takes exactly its size.", "quantifier": "every program the front end accepts and the generator emits code for, every type, argument, value and input bytes, and every depth to which references between types are expanded", "why_tests_cant": "declarations, nesting and values are unbounded; a size that is off in one branch (a conditional field counted when absent, a bulk array path writing the wrong width) shows only on the combination that takes it", "anchors": ["protospec-build/src/compiler/encoder.rs", "protospec-build/src/compiler/decoder.rs", "protospec-build/src/coder/encode", "protospec-build/src/coder/decode", "protospec-build/src/prelude/var.rs"]}
{"id": "C63", "title": "The wire format of a type depends only on the types it refers to", "statement": "Whatever else a specification declares, the encoder and decoder generated for a type behave the same - same values, bytes, errors and bytes taken, for every argument and input - as those generated from any other accepted specification in which that type and the types it refers to, directly or indirectly, are declared alike. So adding types anywhere in a file, or changing types that are not referred to, never changes the wire format of the others.", "quantifier": "every pair of accepted specifications, every type, and every argument list, value and input", "why_tests_cant": "pairs of specifications are unbounded; generation goes through tables shared by all declarations of a file, so an interference shows only for particular combinations of names and declarations", "anchors": ["protospec-build/src/compiler/mod.rs", "protospec-build/src/semantics/convert", "protospec-build/src/coder/encode", "protospec-build/src/coder/decode", "protospec-build/src/asg"]}
{"id": "C64", "title": "Generated code for non-recursive types needs bounded stack", "statement": "If no type that a type refers to refers back to itself, its generated decoder and encoder never have more generated functions on the call stack than the specification declares types, whatever the input, arguments or value. (For recursive types there is no bound: each byte of input can add a level, so input of n bytes can force n nested calls.)", "quantifier": "every accepted specification, every type without recursion, every input, argument list and value; for the refutation, every depth", "why_tests_cant": "the bound must hold for every input and value; no finite set of inputs shows how deep the calls can get", "anchors": ["protospec-build/src/compiler/decoder.rs", "protospec-build/src/compiler/encoder.rs", "protospec-build/src/coder/decode", "protospec-build/src/coder/encode"]}
{"id": "C65", "title": "Decoded values are not larger than their input", "statement": "When a generated decoder returns a value, the numbers, booleans, enum values, flag sets and characters in that value are together at most as many as the bytes the decoder took: a short input cannot make the decoder return large data, whatever length fields it contains.", "quantifier": "every accepted program in the checked generator's domain, every type and argument list, every input, every world of foreign types and transforms that do not expand their input", "why_tests_cant": "an attacker chooses the length fields and the nesting; a test tries a few inputs of a few types", "anchors": ["protospec-build/src/compiler/decoder.rs: emit of arrays, containers, scalars, enums", "protospec-build/src/coder/decode/*.rs", "protospec-build/src/prelude (utf8, varint)"]}
{"id": "C66", "title": "Constants mean their values", "statement": "Using a constant in a specification is the same as writing its value there: wherever a constant's name may be written (in another constant, an enum variant's or flag's value, an array length, a condition, a default, a type argument), the resulting generated code behaves as if the constant's definition had been written instead.", "quantifier": "every constant expression, however deeply constants refer to each other; every place where a constant may be used", "why_tests_cant": "constants refer to constants in unbounded nesting and may be used in any expression position; a test tries one", "anchors": ["protospec-build/src/compiler/expr.rs: eval_const_expression 168-251, emit_expression 363-368", "protospec-build/src/compiler/mod.rs: compile_program 91-185"]}
{"id": "C67", "title": "Layout and comments do not matter", "statement": "White space and comments carry no meaning: two specification texts that consist of the same tokens, comments left out, are either both rejected or both accepted, and then denote the same program; the same holds for every file they import. Any accepted text may be laid out afresh, with whatever white space and comments one likes between its tokens.", "quantifier": "every pair of texts with the same tokens, every resolver and every pair of sets of imported files that differ in layout only, every layout", "why_tests_cant": "the layouts of a text are unboundedly many, and the texts and import trees are too; a test compares one pair", "anchors": ["protospec-build/src/tokenizer.rs: tokenize", "protospec-build/src/parser/mod.rs: parse", "protospec-build/src/semantics/convert/program/mod.rs: from_ast, from_ast_imported", "protospec-build/src/semantics/convert/program/resolve.rs: from_ast_imports"]}
{"id": "C68", "title": "A container is written as its fields, one after the other", "statement": "The wire format is compositional: the encoding of a container is, field by field in declaration order, what the encode function of each field's type gives for the field's value (with the type arguments evaluated on the container's fields, and nothing for conditional fields whose condition is false); decoding a container is decoding its fields in turn with the decode functions of their types. The first field that fails decides the error.", "quantifier": "every accepted program, every container of primitive fields and references to declared or foreign types (with type arguments and conditions, without transforms, padding, calculated values or declared length), every value and every input", "why_tests_cant": "the statement is about every program and about the code of two declarations at once; a test sees one container and a few values", "anchors": ["protospec-build/src/coder/encode/mod.rs", "protospec-build/src/coder/decode/mod.rs", "protospec-build/src/compiler/encoder.rs", "protospec-build/src/compiler/decoder.rs"]}
{"id": "C69", "title": "Fields can be added at the end of a container", "statement": "If a container gets new fields after its old ones, old readers keep working: every input the new reader reads is read by the old reader, with the same values for the fields it knows, leaving the bytes from the first added field on; and an input the old reader refuses is refused by the new one with the same error. Conversely, if the added fields are conditional and their conditions are false of the old fields (a version number), the new reader reads old messages, the added fields being absent.", "quantifier": "every accepted program with two such containers (fields of any kind; no declared length or transforms on the container itself), all type arguments, every input", "why_tests_cant": "compatibility is about every message ever sent, of both versions, and any kind of fields; a test decodes a few", "anchors": ["protospec-build/src/coder/decode/mod.rs", "protospec-build/src/coder/decode/container.rs", "protospec-build/src/compiler/decoder.rs"]}
{"id": "C70", "title": "Variants can be added to tagged containers and enums", "statement": "Adding variants at the end of a tagged container, or valued variants before an enum's default, changes nothing for messages that do not use them: where an old variant is selected, the new type reads and writes exactly what the old type does, failures included; an enum message whose tag is none of the added values is read to the same variant, default or refusal, and every old enum value is written as before.", "quantifier": "every accepted program with two such types (any variants, conditions over the type's arguments, declared lengths), all type arguments, inputs and values", "why_tests_cant": "the claim compares two types on all messages, for any variants and conditions; a test compares a few", "anchors": ["protospec-build/src/coder/decode/container.rs", "protospec-build/src/coder/encode/container.rs", "protospec-build/src/compiler/mod.rs: generate_enum", "protospec-build/src/compiler/decoder.rs", "protospec-build/src/compiler/encoder.rs"]}
{"id": "C71", "title": "Grouping fields in a nested container does not change the format", "statement": "A nested container without condition, transform or declared length is only a grouping: a type with the group reads and writes exactly what the type with the group's fields in its place does, on every input and value, failures included, and the generated structs have the same fields.", "quantifier": "every accepted program with two such declarations, any fields before, in and after the group (fields calculated with blen excluded for writing), any declared length and transforms of the outer type, all arguments, inputs and values", "why_tests_cant": "the groups, the surrounding fields and the messages are unbounded; a test compares one pair of types", "anchors": ["protospec-build/src/coder/decode/container.rs", "protospec-build/src/coder/encode/container.rs", "protospec-build/src/asg/types/mod.rs"]}
{"id": "C72", "title": "Aliases and arrays are written as what they name", "statement": "A type declared as another type with arguments reads and writes exactly the bytes of that type with those arguments (evaluated on its own), failures included, wrapping the value once. An array of n containers is n times the container, one after the other: reading reads n of them in turn, writing concatenates their encodings. An array to the end of the input reads container after container until nothing is left (and fails when one of them does); writing concatenates their encodings.", "quantifier": "every accepted program, every alias of a declared type and every counted array of a container type (counts below 2^63), all arguments, inputs, values and lengths", "why_tests_cant": "the statement relates the generated code of two declarations on every message, and arrays of every length", "anchors": ["protospec-build/src/coder/decode/array.rs", "protospec-build/src/coder/encode/array.rs", "protospec-build/src/compiler/decoder.rs", "protospec-build/src/compiler/encoder.rs"]}
