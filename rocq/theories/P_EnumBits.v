(** Properties C12, C13, C14: enums and bitfields. *)
From Verif Require Import Scalar ScalarFacts ConstInt ConstIntFacts EnumBits EnumBitsFacts.
Local Open Scope string_scope.
Local Open Scope Z_scope.
Local Open Scope list_scope.

(** [values_distinct]: unique names, unique named values, default arm last - what an
    accepted enum with distinct values satisfies (see C13). *)

(** C12. Every named variant encodes as its declared value and decodes to itself. *)
Theorem C12_enum_named_roundtrip : forall rep items n v rest,
  values_distinct items -> In (n, Some v) items ->
  min_of (es_scalar rep) <= v <= max_of (es_scalar rep) ->
  encode_enum rep items (VNamed n) = Some (scalar_bytes rep v) /\
  decode_enum rep items (scalar_bytes rep v ++ rest) = Ok (VNamed n, rest).
Proof. exact (fun rep items n v rest D H R => encode_enum_named rep items n v rest D H (proj2 (in_range_iff _ v) R)). Qed.
Print Assumptions C12_enum_named_roundtrip.

(** C12. The default variant round-trips its payload exactly when the payload is not
    the value of a named variant (otherwise it decodes to that variant). *)
Theorem C12_enum_default_roundtrip : forall rep items d raw rest,
  values_distinct items -> In (d, None) items ->
  min_of (es_scalar rep) <= raw <= max_of (es_scalar rep) ->
  encode_enum rep items (VDefault d raw) = Some (scalar_bytes rep raw) /\
  (decode_enum rep items (scalar_bytes rep raw ++ rest) = Ok (VDefault d raw, rest)
    <-> forall n, ~ In (n, Some raw) items).
Proof. exact (fun rep items d raw rest D H R => encode_enum_default rep items d raw rest D H (proj2 (in_range_iff _ raw) R)). Qed.
Print Assumptions C12_enum_default_roundtrip.

(** C12. Without a default arm an undeclared value is an error. *)
Theorem C12_enum_unknown_rejected : forall rep items raw rest,
  min_of (es_scalar rep) <= raw <= max_of (es_scalar rep) ->
  (forall n, ~ In (n, Some raw) items) -> (forall n, ~ In (n, None) items) ->
  decode_enum rep items (scalar_bytes rep raw ++ rest) = Err EDecode.
Proof. exact (fun rep items raw rest R => decode_enum_unknown rep items raw rest (proj2 (in_range_iff _ raw) R)). Qed.
Print Assumptions C12_enum_unknown_rejected.

(** C12. Whatever decodes re-encodes to the consumed bytes. *)
Theorem C12_enum_decode_reencode : forall rep items l x rest,
  NoDup (names items) -> bytes_ok l -> decode_enum rep items l = Ok (x, rest) ->
  exists b, encode_enum rep items x = Some b /\ l = b ++ rest.
Proof. exact decode_enum_reencode. Qed.
Print Assumptions C12_enum_decode_reencode.

(** C12. [values_distinct] cannot be dropped: duplicate values are accepted and then
    the later variant does not come back. *)
Theorem C12_duplicate_values_refuted : exists items out b,
  convert_enum U8 [("a", IExpr 1); ("b", IExpr 1)] = Ok items /\ eval_enum true U8 items = Ok out /\
  encode_enum {| es_scalar := U8; es_endian := Big |} out (VNamed "b") = Some b /\
  decode_enum {| es_scalar := U8; es_endian := Big |} out b = Ok (VNamed "a", []).
Proof. do 3 eexists. repeat (split; [vm_compute; reflexivity|]). vm_compute. reflexivity. Qed.
Print Assumptions C12_duplicate_values_refuted.

Definition demo_enum : list (string * option Z) := [("west", Some 1); ("east", Some 2); ("other", None)].
Example C12_nonvacuous : values_distinct demo_enum /\
  decode_enum {| es_scalar := I16; es_endian := Little |} demo_enum [2; 0; 9] = Ok (VNamed "east", [9]) /\
  decode_enum {| es_scalar := I16; es_endian := Little |} demo_enum [7; 0] = Ok (VDefault "other" 7, []).
Proof.
  split; [|vm_compute; auto]. unfold values_distinct, demo_enum. split; [|split].
  - cbn. repeat constructor; cbn; intuition congruence.
  - intros i j n m v Hi Hj. do 4 (try destruct i as [|i]); do 4 (try destruct j as [|j]); cbn in Hi, Hj; congruence.
  - intros i n Hi. do 4 (try destruct i as [|i]); cbn in Hi; try congruence; reflexivity.
Qed.

(** C13. In an accepted enum: explicit items keep their value, an automatic item is
    the nearest preceding explicit value plus its distance (in range, never wrapped),
    and a default arm is last. *)
Theorem C13_enum_auto_values : forall rep todo items out,
  convert_enum rep todo = Ok items -> eval_enum true rep items = Ok out ->
  List.length out = List.length todo /\
  forall i n it, nth_error todo i = Some (n, it) ->
   match it with
   | IExpr v => nth_error out i = Some (n, Some v)
   | IDefault => nth_error out i = Some (n, None) /\ S i = List.length todo
   | INone => exists j v, nearest_explicit todo i j v
              /\ nth_error out i = Some (n, Some (v + Z.of_nat (i - j)))
              /\ in_range rep (v + Z.of_nat (i - j)) = true
   end.
Proof. exact enum_values_lemma. Qed.
Print Assumptions C13_enum_auto_values.

(** C13. Names are unique and nothing may follow the default arm. *)
Theorem C13_enum_default_last : forall rep todo items, convert_enum rep todo = Ok items ->
  NoDup (names todo) /\
  forall i n, nth_error todo i = Some (n, IDefault) -> S i = List.length todo.
Proof. exact convert_enum_default_last. Qed.
Print Assumptions C13_enum_default_last.

(** C13. With an explicit first item (which the grammar demands) the conversion
    returns a result or an error; it never crashes. *)
Theorem C13_enum_no_panic : forall rep n v todo,
  convert_enum rep ((n, IExpr v) :: todo) <> Panic /\ convert_enum rep ((n, IExpr v) :: todo) <> Hang.
Proof. exact convert_enum_no_panic. Qed.
Print Assumptions C13_enum_no_panic.

(** C13. Bitfields: an automatic flag is the nearest explicit value shifted left by
    its distance, as a two's-complement number (bits shifted out are dropped). *)
Theorem C13_bitfield_auto_values_partial : forall rep todo items out,
  convert_bitfield rep todo = Ok items -> eval_bitfield true rep items = Ok out ->
  List.length out = List.length todo /\
  forall i n it, nth_error todo i = Some (n, it) ->
   match it with
   | Some v => nth_error out i = Some (n, v)
   | None => exists j v x, bnearest todo i j v /\ nth_error out i = Some (n, x)
       /\ in_range rep x = true
       /\ x mod 2 ^ bits rep = (v * 2 ^ Z.of_nat (i - j)) mod 2 ^ bits rep
       /\ Z.of_nat (i - j) < bits rep
   end.
Proof. exact bitfield_values_lemma. Qed.
Print Assumptions C13_bitfield_auto_values_partial.
(** C13. The "never wrapped" half is false for bitfields: 3 << 7 in a u8 is 128. *)
Theorem C13_bitfield_overflow_refuted : exists todo items out,
  convert_bitfield U8 todo = Ok items /\ eval_bitfield true U8 items = Ok out /\
  nth_error todo 7 = Some ("h", None) /\ nth_error out 7 = Some ("h", 128) /\ 128 <> 3 * 2 ^ 7.
Proof.
  exists [("a", Some 3); ("b", None); ("c", None); ("d", None); ("e", None); ("f", None); ("g", None); ("h", None)].
  eexists. eexists. split; [vm_compute; reflexivity|]. split; [vm_compute; reflexivity|].
  vm_compute. repeat split; congruence.
Qed.
Print Assumptions C13_bitfield_overflow_refuted.
Example C13_nonvacuous :
  exists items, convert_enum I32 [("west", IExpr 1); ("east", INone); ("north", IExpr 6); ("south", INone); ("d", IDefault)] = Ok items
  /\ eval_enum true I32 items = Ok [("west", Some 1); ("east", Some 2); ("north", Some 6); ("south", Some 7); ("d", None)]
  /\ convert_enum I32 [("d", IDefault); ("x", IExpr 1)] = Err EnumDefaultRedefinition.
Proof. eexists. split; [vm_compute; reflexivity|]. split; vm_compute; reflexivity. Qed.
Example C13_nonvacuous_bitfield :
  exists items, convert_bitfield U8 [("a", Some 1); ("b", None); ("c", None)] = Ok items
  /\ eval_bitfield true U8 items = Ok [("a", 1); ("b", 2); ("c", 4)].
Proof. eexists. split; vm_compute; reflexivity. Qed.

(** C14. A raw bitfield value round-trips exactly when each of its set bits belongs to
    a declared flag; otherwise decoding rejects it. *)
Theorem C14_bitfield_roundtrip_iff : forall rep items raw rest,
  in_range (es_scalar rep) raw = true ->
  (decode_bitfield rep items (encode_bitfield rep raw ++ rest) = Ok (raw, rest)
     <-> only_declared (es_scalar rep) items raw)
  /\ (~ only_declared (es_scalar rep) items raw ->
      decode_bitfield rep items (encode_bitfield rep raw ++ rest) = Err EDecode).
Proof. exact bitfield_roundtrip. Qed.
Print Assumptions C14_bitfield_roundtrip_iff.
(** C14. Every combination of flags (the or of the chosen ones) round-trips. *)
Theorem C14_flag_combinations_roundtrip : forall rep items chosen rest,
  Forall (fun p => in_range (es_scalar rep) (snd p) = true) items ->
  decode_bitfield rep items (encode_bitfield rep (flags_value items chosen) ++ rest)
    = Ok (flags_value items chosen, rest).
Proof.
  exact (fun rep items chosen rest F =>
    proj2 (proj1 (bitfield_roundtrip rep items _ rest (flags_value_range _ items chosen F)))
      (flags_only_declared _ items chosen)).
Qed.
Print Assumptions C14_flag_combinations_roundtrip.
(** C14. When flags share no bits, each getter tells whether its flag was chosen. *)
Theorem C14_flag_getters : forall rep items chosen n v, flags_disjoint items -> In (n, v) items ->
  0 < v -> in_range rep v = true -> bf_get v (flags_value items chosen) = chosen n.
Proof. exact bf_get_flags. Qed.
Print Assumptions C14_flag_getters.
Example C14_nonvacuous :
  let items := [("a", 1); ("b", 2); ("c", 8)] in
  flags_value items (fun n => negb (String.eqb n "b")) = 9 /\
  decode_bitfield {| es_scalar := U8; es_endian := Big |} items [9; 7] = Ok (9, [7]) /\
  decode_bitfield {| es_scalar := U8; es_endian := Big |} items [4] = Err EDecode /\
  flags_disjoint items.
Proof.
  split; [reflexivity|]. split; [reflexivity|]. split; [reflexivity|].
  split; [repeat constructor; cbn; intuition congruence|].
  cbn. intros n v m w [E|[E|[E|[]]]] [F|[F|[F|[]]]] N; injection E as <- <-; injection F as <- <-; try reflexivity; congruence.
Qed.
