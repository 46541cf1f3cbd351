(** Properties C06 - C11: prelude types and functions. *)
From Verif Require Import Scalar ScalarFacts ConstIntFacts Prelude PreludeFacts UtfFacts.
From Coq Require Import Permutation.

(** C06, full claim: forall s v rest, is_varint s = true -> in_range s v = true ->
      exists l, varint_encode s v = Ok l /\ varint_decode s (l ++ rest) = Ok (v, rest).
    It is false of the code: the decoder's byte limit is computed from the
    size in bytes, so 16384 in a v32 (three groups) is cut after two. *)
Theorem C06_varint_roundtrip_refuted :
  exists v l rest, in_range I32 v = true /\ varint_encode I32 v = Ok l
    /\ varint_decode I32 (l ++ rest) = Ok (0, [1] ++ rest) /\ v <> 0.
Proof.
  exists 16384, [128; 128; 1], []. vm_compute. repeat split; congruence.
Qed.
Print Assumptions C06_varint_roundtrip_refuted.
(** C06, exact domain of the round trip, for every width: the unsigned image of the
    value must fit the [varint_max] seven-bit groups the decoder accepts
    (2,2,2,3,4 for v8..v128). *)
Theorem C06_varint_roundtrip_partial : forall s v rest, in_range s v = true ->
  (exists l, varint_encode s v = Ok l /\ varint_decode s (l ++ rest) = Ok (v, rest))
  <-> v mod 2 ^ bits s < 128 ^ Z.of_nat (varint_max s).
Proof. exact varint_roundtrip_iff. Qed.
Print Assumptions C06_varint_roundtrip_partial.
Example C06_limits : map varint_max [I8; I16; I32; I64; I128] = [2; 2; 2; 3; 4]%nat
  /\ 2 ^ bits I8 <= 128 ^ Z.of_nat (varint_max I8) /\ in_range I64 300 = true.
Proof. vm_compute. repeat split; congruence. Qed.
(** C06. In every case what the decoder returns and leaves is this. *)
Theorem C06_varint_decode_encode : forall s v rest,
  exists l, varint_encode s v = Ok l /\
    varint_decode s (l ++ rest) =
      Ok (wrap s ((v mod 2 ^ bits s) mod 128 ^ Z.of_nat (varint_max s)),
          skipn (varint_max s) l ++ rest).
Proof. exact varint_decode_encode. Qed.
Print Assumptions C06_varint_decode_encode.

(** C07. Shape and minimality of the encoding. [group_value] spells the low seven
    bits of each byte, least significant group first. *)
Theorem C07_varint_shape : forall s v, in_range s v = true ->
  exists init last, varint_encode s v = Ok (init ++ [last])
    /\ Forall (fun b => 128 <= b < 256) init /\ 0 <= last < 128
    /\ group_value (init ++ [last]) = v mod 2 ^ bits s
    /\ (forall ds, ds <> [] -> group_value ds = v mod 2 ^ bits s ->
          (length (init ++ [last]) <= length ds)%nat).
Proof. exact varint_shape_lemma. Qed.
Print Assumptions C07_varint_shape.
Example C07_nonvacuous : in_range I32 (-1) = true /\ varint_encode I32 (-1) = Ok [255; 255; 255; 255; 15]
  /\ varint_encode I32 300 = Ok [172; 2].
Proof. vm_compute. auto. Qed.

(** C08, full claim for the null-terminated form: for every string. False with an
    embedded NUL; exact domain: *)
Theorem C08_utf8_nul_roundtrip_partial : forall s rest, Forall usv s ->
  (utf8_read None (utf8_write None s ++ rest) = Ok (s, rest) <-> ~ In 0 s).
Proof. exact utf8_roundtrip_nul_iff. Qed.
Print Assumptions C08_utf8_nul_roundtrip_partial.
(** C08. What happens otherwise: the string is cut at its first NUL and the rest of
    it stays in the stream. *)
Theorem C08_utf8_embedded_nul_cuts : forall a b rest, Forall usv (a ++ 0 :: b) -> ~ In 0 a ->
  utf8_read None (utf8_write None (a ++ 0 :: b) ++ rest) = Ok (a, utf8_encode b ++ [0] ++ rest).
Proof. exact utf8_embedded_nul. Qed.
Print Assumptions C08_utf8_embedded_nul_cuts.
(** C08, length form.  No Rust string has more than isize::MAX bytes. *)
Theorem C08_utf8_len_roundtrip : forall s n rest, Forall usv s ->
  n = Z.of_nat (length (utf8_encode s)) -> n < 2 ^ 63 ->
  utf8_read (Some n) (utf8_write (Some n) s ++ rest) = Ok (s, rest).
Proof. exact utf8_roundtrip_len. Qed.
Print Assumptions C08_utf8_len_roundtrip.
(** C08. Conversely everything the length form accepts is valid and re-encodes identically. *)
Theorem C08_utf8_len_decode_canonical : forall n l s rest, utf8_read (Some n) l = Ok (s, rest) ->
  Forall usv s /\ l = utf8_write (Some n) s ++ rest /\ length (utf8_encode s) = Z.to_nat n.
Proof. exact utf8_len_decode_canonical. Qed.
Print Assumptions C08_utf8_len_decode_canonical.
(** C08. The null-terminated decoder accepts an unterminated string at end of input. *)
Theorem C08_utf8_missing_nul_accepted : exists l s, ~ In 0 l /\ utf8_read None l = Ok (s, []) /\ s <> [].
Proof. exists [65; 66], [65; 66]. vm_compute. repeat split; intros; intuition congruence. Qed.
Print Assumptions C08_utf8_missing_nul_accepted.
Example C08_nonvacuous : utf8_write None [233; 8364; 128512] = [195; 169; 226; 130; 172; 240; 159; 152; 128; 0]
  /\ Forall usv [233; 8364; 128512] /\ ~ In 0 [233; 8364; 128512].
Proof.
  split; [vm_compute; reflexivity|]. split.
  - repeat constructor; unfold usv; lia.
  - cbn. intuition congruence.
Qed.

(** C09, full claim: for every host. It holds on big-endian hosts (for strings whose UTF-16 form can be in memory) ... *)
Theorem C09_utf16_roundtrip_big_endian_partial : forall s rest, Forall usv s -> Z.of_nat (length (utf16_units s)) < 2 ^ 62 ->
  utf16_read Big (Z.of_nat (length (utf16_units s))) (utf16_write s ++ rest) = Ok (s, rest).
Proof. exact utf16_roundtrip_big. Qed.
Print Assumptions C09_utf16_roundtrip_big_endian_partial.
(** ... and on little-endian hosts exactly for strings whose every code unit has two
    equal bytes. *)
Theorem C09_utf16_little_endian_partial : forall s rest, Forall usv s -> Z.of_nat (length (utf16_units s)) < 2 ^ 62 ->
  (utf16_read Little (Z.of_nat (length (utf16_units s))) (utf16_write s ++ rest) = Ok (s, rest)
   <-> Forall (fun u => u mod 256 = u / 256) (utf16_units s)).
Proof. exact utf16_little_fails_iff. Qed.
Print Assumptions C09_utf16_little_endian_partial.
Theorem C09_utf16_roundtrip_refuted : exists s,
  Forall usv s /\ utf16_read Little (Z.of_nat (length (utf16_units s))) (utf16_write s) = Ok ([16640], [])
  /\ s = [65].
Proof. exists [65]. split; [constructor; [left; lia|constructor]|split; [vm_compute; reflexivity|reflexivity]]. Qed.
Print Assumptions C09_utf16_roundtrip_refuted.
Example C09_nonvacuous : utf16_units [65; 128512] = [65; 55357; 56832] /\ utf16_write [65] = [0; 65].
Proof. vm_compute. auto. Qed.

(** C10. pad(p, base) is the least n with base + n a multiple of p. *)
Theorem C10_pad_least : forall pad base, 0 < pad -> 0 <= base ->
  exists n, pad_fn pad base = Ok n /\ 0 <= n < pad /\ (base + n) mod pad = 0
    /\ (forall m, 0 <= m -> (base + m) mod pad = 0 -> n <= m).
Proof. exact pad_lemma. Qed.
Print Assumptions C10_pad_least.
Theorem C10_pad_zero : forall base, pad_fn 0 base = Panic.
Proof. exact (fun _ => eq_refl). Qed.
Print Assumptions C10_pad_zero.
Example C10_nonvacuous : pad_fn 4 5 = Ok 3 /\ pad_fn 4 8 = Ok 0.
Proof. vm_compute. auto. Qed.

(** C11. bits() is the number of one bits among the 64. *)
Theorem C11_bits_counts_ones : forall v, bits_fn v = Z.of_nat (ones_below 64 v).
Proof. exact bits_lemma. Qed.
Print Assumptions C11_bits_counts_ones.
(** C11. sum() over u64-representable elements is the exact sum or a panic. *)
Theorem C11_sum_exact : forall l, Forall (fun x => 0 <= x < 2 ^ 64) l ->
  sum_fn true l = if zsum l <? 2 ^ 64 then Ok (zsum l) else Panic.
Proof. exact sum_lemma. Qed.
Print Assumptions C11_sum_exact.
Theorem C11_sum_order_independent : forall l m, Permutation l m ->
  Forall (fun x => 0 <= x < 2 ^ 64) l -> sum_fn true l = sum_fn true m.
Proof. exact sum_perm_lemma. Qed.
Print Assumptions C11_sum_order_independent.
(** C11. Arrays of a signed type are accepted by sum() but negative elements are
    reinterpreted as huge unsigned ones: [1, -1] overflows instead of giving 0. *)
Theorem C11_sum_signed_refuted : sum_fn true [1; -1] = Panic /\ zsum [1; -1] = 0.
Proof. split; reflexivity. Qed.
Print Assumptions C11_sum_signed_refuted.
Example C11_nonvacuous : bits_fn 255 = 8 /\ sum_fn true [1; 2; 3] = Ok 6 /\ sum_fn true [2 ^ 64 - 1; 1] = Panic.
Proof. vm_compute. auto. Qed.
