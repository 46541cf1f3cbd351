(** Scalar types and their byte codecs.
    Models ast/types/scalar.rs and the primitive read/write code emitted by
    compiler/encoder.rs and compiler/decoder.rs. *)
From Verif Require Export Base.

(** ast/types/scalar.rs:9-21 [ScalarType]. *)
Inductive scalar := U8 | U16 | U32 | U64 | U128 | I8 | I16 | I32 | I64 | I128.

(** ast/types/scalar.rs:3-7 [Endian]. *)
Inductive endian := Big | Little.

(** ast/types/scalar.rs:23-27 [EndianScalarType]. *)
Record escalar := { es_scalar : scalar; es_endian : endian }.

Definition scalar_eqb (a b : scalar) : bool :=
  match a, b with
  | U8,U8 | U16,U16 | U32,U32 | U64,U64 | U128,U128
  | I8,I8 | I16,I16 | I32,I32 | I64,I64 | I128,I128 => true
  | _,_ => false
  end.

Definition endian_eqb (a b : endian) : bool :=
  match a, b with Big,Big | Little,Little => true | _,_ => false end.

(** derived PartialEq of EndianScalarType (scalar.rs:23). *)
Definition escalar_eqb (a b : escalar) : bool :=
  scalar_eqb (es_scalar a) (es_scalar b) && endian_eqb (es_endian a) (es_endian b).

(** ast/types/scalar.rs:46-55 [ScalarType::is_signed]. *)
Definition is_signed (s : scalar) : bool :=
  match s with I8 | I16 | I32 | I64 | I128 => true | _ => false end.

(** ast/types/scalar.rs:57-65 [ScalarType::size], in bytes. *)
Definition size (s : scalar) : nat :=
  match s with
  | I8 | U8 => 1 | I16 | U16 => 2 | I32 | U32 => 4 | I64 | U64 => 8 | I128 | U128 => 16
  end.

(** ast/types/scalar.rs:36-44 [ScalarType::can_implicit_cast_to]. *)
Definition can_implicit_cast_to (from to : scalar) : bool :=
  if negb (Bool.eqb (is_signed from) (is_signed to)) then false
  else if (size to <? size from)%nat then false
  else true.

(** Range of the Rust integer type of that name (language semantics). *)
Definition bits (s : scalar) : Z := 8 * Z.of_nat (size s).
Definition min_of (s : scalar) : Z := if is_signed s then - 2 ^ (bits s - 1) else 0.
Definition max_of (s : scalar) : Z := if is_signed s then 2 ^ (bits s - 1) - 1 else 2 ^ bits s - 1.
Definition in_range (s : scalar) (v : Z) : bool := (min_of s <=? v) && (v <=? max_of s).

(** Rust [as] between integers: reduce modulo 2^bits into the target's range. *)
Definition wrap (s : scalar) (v : Z) : Z :=
  let m := v mod 2 ^ bits s in
  if is_signed s && (2 ^ (bits s - 1) <=? m) then m - 2 ^ bits s else m.

(** std [to_le_bytes] of an n-byte integer: two's-complement, least significant first. *)
Fixpoint le_bytes (n : nat) (v : Z) : list Z :=
  match n with
  | O => []
  | S n => v mod 256 :: le_bytes n (v / 256)
  end.

(** std [from_le_bytes], unsigned image. *)
Fixpoint le_value (l : list Z) : Z :=
  match l with
  | [] => 0
  | b :: l => b + 256 * le_value l
  end.

(** The bytes the emitted encoder writes for a scalar: [#source.to_be_bytes()] or
    [to_le_bytes()] (compiler/encoder.rs:242-262 EncodePrimitive; the endianness
    is chosen from the type's [Endian]). *)
Definition scalar_bytes (t : escalar) (v : Z) : list Z :=
  match es_endian t with
  | Big => rev (le_bytes (size (es_scalar t)) v)
  | Little => le_bytes (size (es_scalar t)) v
  end.

(** [from_be_bytes]/[from_le_bytes] on a full-width buffer
    (compiler/decoder.rs:289-301). *)
Definition scalar_of_bytes (t : escalar) (l : list Z) : Z :=
  wrap (es_scalar t)
       (le_value (match es_endian t with Big => rev l | Little => l end)).

(** compiler/decoder.rs:285-304 DecodePrimitive: read_exact of the width, then
    from_*_bytes. *)
Definition decode_scalar (t : escalar) (l : list Z) : res ioerr (Z * list Z) :=
  let! (a, rest) := read_exact (size (es_scalar t)) l in
  Ok (scalar_of_bytes t a, rest).
