(** Properties C01, C02: scalar fields. *)
From Verif Require Import Scalar ScalarFacts.

(** C01. Every in-range value of every scalar type, in either byte order and
    followed by anything, decodes to itself leaving what followed; its encoding
    is [size] bytes, each a byte. *)
Theorem C01_scalar_roundtrip : forall t v rest,
  min_of (es_scalar t) <= v <= max_of (es_scalar t) ->
  decode_scalar t (scalar_bytes t v ++ rest) = Ok (v, rest)
  /\ length (scalar_bytes t v) = size (es_scalar t)
  /\ bytes_ok (scalar_bytes t v).
Proof.
  exact (fun t v rest H => conj (decode_scalar_roundtrip t v rest (proj2 (in_range_iff _ v) H))
    (conj (scalar_bytes_length t v) (scalar_bytes_ok t v))).
Qed.
Print Assumptions C01_scalar_roundtrip.
Example C01_nonvacuous :
  min_of I16 <= -2 <= max_of I16 /\
  scalar_bytes {| es_scalar := I16; es_endian := Little |} (-2) = [254; 255] /\
  scalar_bytes {| es_scalar := I16; es_endian := Big |} (-2) = [255; 254].
Proof. vm_compute. repeat split; congruence. Qed.

(** C02. Decoding any byte string succeeds exactly when it is long enough; the
    result is in range and re-encodes to the bytes consumed. *)
Theorem C02_scalar_decode_bijective : forall t l, bytes_ok l ->
  (exists v rest, decode_scalar t l = Ok (v, rest)
     /\ l = scalar_bytes t v ++ rest
     /\ min_of (es_scalar t) <= v <= max_of (es_scalar t))
  \/ (decode_scalar t l = Err EEof /\ (length l < size (es_scalar t))%nat).
Proof.
  exact (fun t l Hl =>
    match decode_scalar_total t l with
    | or_introl (ex_intro _ v (ex_intro _ rest (conj E _))) =>
        or_introl (ex_intro _ v (ex_intro _ rest
          (conj E (conj (decode_scalar_reencode t l v rest Hl E)
                        (proj1 (in_range_iff _ v) (decode_scalar_in_range t l v rest E))))))
    | or_intror H => or_intror H
    end).
Qed.
Print Assumptions C02_scalar_decode_bijective.

(** C02. Byte order: little-endian is big-endian reversed, and the big-endian
    bytes, as base-256 digits, spell the value modulo 2^bits. *)
Theorem C02_scalar_byte_order : forall s v,
  scalar_bytes {| es_scalar := s; es_endian := Little |} v
    = rev (scalar_bytes {| es_scalar := s; es_endian := Big |} v)
  /\ base256 (scalar_bytes {| es_scalar := s; es_endian := Big |} v) = v mod 2 ^ bits s.
Proof.
  exact (fun s v => conj (eq_sym (rev_involutive (le_bytes (size s) v)))
    (eq_trans (base256_rev (le_bytes (size s) v)) (le_value_le_bytes (size s) v))).
Qed.
Print Assumptions C02_scalar_byte_order.
Example C02_nonvacuous :
  decode_scalar {| es_scalar := I16; es_endian := Big |} [255; 254; 7] = Ok (-2, [7])
  /\ decode_scalar {| es_scalar := U32; es_endian := Big |} [1; 2; 3] = Err EEof
  /\ base256 [1; 2; 3] = 66051.
Proof. vm_compute. auto. Qed.
