(** Prelude foreign types and functions: the code they emit.
    prelude/var.rs, utf8.rs, utf16.rs, pad.rs, bits.rs, sum.rs. *)
From Verif Require Export Scalar.

(** ** VarInt (prelude/var.rs) *)

(** var.rs:11-27 [VarInt::new]: the unsigned type of the same width. *)
Definition unsigned_of (s : scalar) : scalar :=
  match s with
  | I8 => U8 | I16 => U16 | I32 => U32 | I64 => U64 | I128 => U128
  | x => x
  end.

(** resolver.rs:75-79: the widths offered as v8 .. v128. *)
Definition is_varint (s : scalar) : bool := is_signed s.

(** var.rs:74: [(size as f64 / 7.0).ceil() as usize].  The division is exact
    enough for the five sizes; modelled as integer ceiling. *)
Definition varint_end (s : scalar) : nat := ((size s + 6) / 7)%nat.

(** var.rs:104-113: the emitted write loop over the unsigned image.
    [value & !0x7f != 0], [(value as u8 & 127) | 128], [value >>= 7]. *)
Fixpoint varint_write (fuel : nat) (u : scalar) (value : Z) : res ioerr (list Z) :=
  match fuel with
  | O => Hang
  | S f =>
      if Z.land value (wrap u (Z.lnot 127)) =? 0
      then Ok [wrap U8 value]
      else let! l := varint_write f u (Z.shiftr value 7) in
           Ok (Z.lor (Z.land (wrap U8 value) 127) 128 :: l)
  end.

(** var.rs:106 [value = field.clone() as unsigned]; the fuel exceeds the number of
    seven-bit groups of any scalar. *)
Definition varint_encode (s : scalar) (v : Z) : res ioerr (list Z) :=
  varint_write 32 (unsigned_of s) (wrap (unsigned_of s) v).

(** var.rs:78-91: the emitted read loop.  [i] counts bytes read, [output] has
    type [s]; the loop condition is tested before each read and [i > end] breaks. *)
Fixpoint varint_read (fuel : nat) (s : scalar) (i : nat) (output : Z) (l : list Z)
  : res ioerr (Z * list Z) :=
  match fuel with
  | O => Hang
  | S f =>
      let! (buf, rest) := read_exact 1 l in
      let b := hd 0 buf in
      let output := Z.lor output
        (wrap s (wrap (unsigned_of s)
           (Z.shiftl (Z.land (wrap (unsigned_of s) b) 127) (Z.of_nat i * 7)))) in
      let i := S i in
      if (varint_end s <? i)%nat then Ok (output, rest)
      else if Z.land b 128 =? 128 then varint_read f s i output rest
      else Ok (output, rest)
  end.
Definition varint_decode (s : scalar) (l : list Z) : res ioerr (Z * list Z) :=
  varint_read 32 s 0 0 l.

(** ** pad, bits, sum *)

(** pad.rs:25-35: [if base % pad == 0 { 0 } else { pad - (base % pad) }] on u64;
    argument 0 is [pad], argument 1 is [base]; % by zero panics. *)
Definition pad_fn (pad base : Z) : res ioerr Z :=
  if pad =? 0 then Panic
  else if Z.rem base pad =? 0 then Ok 0 else Ok (pad - Z.rem base pad).

(** bits.rs:6-23: [(input).count_ones() as u8]; the argument is coerced to u64. *)
Fixpoint popcount (n : nat) (v : Z) : Z :=
  match n with
  | O => 0
  | S n => Z.b2z (Z.odd v) + popcount n (Z.div2 v)
  end.
Definition bits_fn (v : Z) : Z := wrap U8 (popcount 64 v).

(** sum.rs:28-30: [iter().map(|x| x as u64).sum::<u64>()]; std's sum adds left to
    right from 0, with the profile's overflow behaviour ([chk]). *)
Definition sum_step (chk : bool) (acc : res ioerr Z) (x : Z) : res ioerr Z :=
  let! a := acc in
  let v := a + wrap U64 x in
  if in_range U64 v then Ok v else if chk then Panic else Ok (wrap U64 v).
Definition sum_fn (chk : bool) (l : list Z) : res ioerr Z := fold_left (sum_step chk) l (Ok 0).

(** ** Strings (prelude/utf8.rs, utf16.rs) *)

(** A Rust [String] is modelled by its list of Unicode scalar values; the bytes
    of [as_bytes] and the validation of [String::from_utf8] are the UTF-8 codec
    below (std semantics, Unicode table 3-7). *)
Definition usv (c : Z) : Prop := 0 <= c < 55296 \/ 57344 <= c < 1114112.
Definition is_usv (c : Z) : bool :=
  ((0 <=? c) && (c <? 55296)) || ((57344 <=? c) && (c <? 1114112)).

Definition utf8_char (c : Z) : list Z :=
  if c <? 128 then [c]
  else if c <? 2048 then [192 + c / 64; 128 + c mod 64]
  else if c <? 65536 then [224 + c / 4096; 128 + (c / 64) mod 64; 128 + c mod 64]
  else [240 + c / 262144; 128 + (c / 4096) mod 64; 128 + (c / 64) mod 64; 128 + c mod 64].
Definition utf8_encode (s : list Z) : list Z := flat_map utf8_char s.

Definition cont (b : Z) : bool := (128 <=? b) && (b <? 192).
(** [String::from_utf8]: strict decoding; [None] is Utf8Error. *)
Fixpoint from_utf8 (l : list Z) : option (list Z) :=
  match l with
  | [] => Some []
  | b0 :: l0 =>
      let ok c r := match r with Some r => Some (c :: r) | None => None end in
      if (0 <=? b0) && (b0 <? 128) then ok b0 (from_utf8 l0)
      else match l0 with
      | [] => None
      | b1 :: l1 =>
        if (194 <=? b0) && (b0 <? 224) then
          if cont b1 then ok ((b0 - 192) * 64 + (b1 - 128)) (from_utf8 l1) else None
        else match l1 with
        | [] => None
        | b2 :: l2 =>
          if (224 <=? b0) && (b0 <? 240) then
            if cont b1 && cont b2 then
              let c := (b0 - 224) * 4096 + (b1 - 128) * 64 + (b2 - 128) in
              if (2048 <=? c) && is_usv c then ok c (from_utf8 l2) else None
            else None
          else match l2 with
          | [] => None
          | b3 :: l3 =>
            if (240 <=? b0) && (b0 <? 245) then
              if cont b1 && cont b2 && cont b3 then
                let c := (b0 - 240) * 262144 + (b1 - 128) * 4096 + (b2 - 128) * 64 + (b3 - 128) in
                if (65536 <=? c) && is_usv c then ok c (from_utf8 l3) else None
              else None
            else None
          end
        end
      end
  end.

(** utf8.rs:184-206: with a length argument only the bytes are written (the
    length is not consulted); without one a NUL is appended. *)
Definition utf8_write (len : option Z) (s : list Z) : list Z :=
  match len with
  | Some _ => utf8_encode s
  | None => utf8_encode s ++ [0]
  end.

(** std [BufRead::read_until(0)]: everything up to and including the first 0, or
    the whole stream; returns (bytes, rest). *)
Fixpoint read_until0 (l : list Z) : list Z * list Z :=
  match l with
  | [] => ([], [])
  | b :: l => if b =? 0 then ([b], l) else let (a, r) := read_until0 l in (b :: a, r)
  end.

(** utf8.rs:28-58; [Vec::with_capacity] panics beyond isize::MAX bytes. *)
Definition utf8_read (len : option Z) (l : list Z) : res ioerr (list Z * list Z) :=
  match len with
  | Some n =>
      if 2 ^ 63 <=? n then Panic else
      let! (t, rest) := read_exact (Z.to_nat n) l in
      let! s := of_opt EDecode (from_utf8 t) in Ok (s, rest)
  | None =>
      let (t, rest) := read_until0 l in
      let t := match rev t with
               | b :: r => if b =? 0 then rev r else t
               | [] => t
               end in
      let! s := of_opt EDecode (from_utf8 t) in Ok (s, rest)
  end.

(** std [str::encode_utf16]. *)
Definition utf16_char (c : Z) : list Z :=
  if c <? 65536 then [c]
  else [55296 + (c - 65536) / 1024; 56320 + (c - 65536) mod 1024].
Definition utf16_units (s : list Z) : list Z := flat_map utf16_char s.

(** std [String::from_utf16]: unpaired surrogates are an error. *)
Fixpoint from_utf16 (l : list Z) : option (list Z) :=
  match l with
  | [] => Some []
  | u :: l0 =>
      let ok c r := match r with Some r => Some (c :: r) | None => None end in
      if (55296 <=? u) && (u <? 56320) then
        match l0 with
        | v :: l1 => if (56320 <=? v) && (v <? 57344)
                     then ok (65536 + (u - 55296) * 1024 + (v - 56320)) (from_utf16 l1)
                     else None
        | [] => None
        end
      else if (56320 <=? u) && (u <? 57344) then None
      else ok u (from_utf16 l0)
  end.

(** utf16.rs:49-64: every unit is written big-endian. *)
Definition utf16_write (s : list Z) : list Z :=
  flat_map (fun u => scalar_bytes {| es_scalar := U16; es_endian := Big |} u) (utf16_units s).

(** utf16.rs:32-46: [len] units are read straight into memory, so their byte order
    is the host's ([host]); [Vec::with_capacity] panics beyond isize::MAX bytes. *)
Fixpoint units_of (host : endian) (n : nat) (l : list Z) : list Z :=
  match n with
  | O => []
  | S n => scalar_of_bytes {| es_scalar := U16; es_endian := host |} (firstn 2 l)
           :: units_of host n (skipn 2 l)
  end.
Definition utf16_read (host : endian) (len : Z) (l : list Z) : res ioerr (list Z * list Z) :=
  if 2 ^ 62 <=? len then Panic else
  let! (t, rest) := read_exact (2 * Z.to_nat len) l in
  let! s := of_opt EDecode (from_utf16 (units_of host (Z.to_nat len) t)) in
  Ok (s, rest).
