(** Properties C03, C04, C05: compile-time integers and casts. *)
From Verif Require Import Scalar ScalarFacts ConstInt ConstIntFacts.

(** C03. With overflow checks on (the profile [cargo build] gives build scripts),
    + - * and unary - give the exact result or stop the compiler.
    [exact_or_panic s v r]: r is v when v fits type s, and Panic otherwise. *)
Theorem C03_arith_exact_or_refused : forall s a b,
  exact_or_panic s (a + b) (ci_add true (CI s a) (CI s b)) /\
  exact_or_panic s (a - b) (ci_sub true (CI s a) (CI s b)) /\
  exact_or_panic s (a * b) (ci_mul true (CI s a) (CI s b)) /\
  (is_signed s = true -> exact_or_panic s (- a) (ci_neg true (CI s a))) /\
  (is_signed s = false -> ci_neg true (CI s a) = Panic).
Proof. exact arith_lemma. Qed.
Print Assumptions C03_arith_exact_or_refused.
Example C03_nonvacuous_arith :
  ci_add true (CI U8 200) (CI U8 55) = Ok (Some (CI U8 255)) /\
  ci_add true (CI U8 200) (CI U8 56) = Panic /\
  ci_neg true (CI I8 (-128)) = Panic.
Proof. vm_compute. auto. Qed.

(** C03. / and % are truncating division with remainder, in every profile; the
    only refused non-zero division is MIN / -1. *)
Theorem C03_div_rem : forall s a b,
  in_range s a = true -> in_range s b = true -> b <> 0 ->
  (exists q r, ci_div (CI s a) (CI s b) = Ok (Some (CI s q)) /\ ci_rem (CI s a) (CI s b) = Ok (Some (CI s r))
     /\ in_range s q = true /\ in_range s r = true
     /\ a = b * q + r /\ Z.abs r < Z.abs b /\ 0 <= r * a)
  \/ (a = min_of s /\ b = -1 /\ is_signed s = true /\ ci_div (CI s a) (CI s b) = Panic /\ ci_rem (CI s a) (CI s b) = Panic).
Proof. exact div_lemma. Qed.
Print Assumptions C03_div_rem.
Theorem C03_div_by_zero_refused : forall s a,
  ci_div (CI s a) (CI s 0) = Panic /\ ci_rem (CI s a) (CI s 0) = Panic.
Proof. exact div_zero_lemma. Qed.
Print Assumptions C03_div_by_zero_refused.
Example C03_nonvacuous_div : ci_div (CI I8 (-7)) (CI I8 2) = Ok (Some (CI I8 (-3)))
  /\ ci_rem (CI I8 (-7)) (CI I8 2) = Ok (Some (CI I8 (-1))).
Proof. vm_compute. auto. Qed.

(** C03. Bitwise operators act on every bit of the two's-complement image and stay in range. *)
Theorem C03_bitwise : forall s a b, in_range s a = true -> in_range s b = true ->
  exists o n x, ci_bitor (CI s a) (CI s b) = Ok (Some (CI s o))
    /\ ci_bitand (CI s a) (CI s b) = Ok (Some (CI s n))
    /\ ci_bitxor (CI s a) (CI s b) = Ok (Some (CI s x))
    /\ in_range s o = true /\ in_range s n = true /\ in_range s x = true
    /\ (forall i, 0 <= i -> Z.testbit o i = (Z.testbit a i || Z.testbit b i)%bool
                          /\ Z.testbit n i = (Z.testbit a i && Z.testbit b i)%bool
                          /\ Z.testbit x i = xorb (Z.testbit a i) (Z.testbit b i)).
Proof. exact bitwise_lemma. Qed.
Print Assumptions C03_bitwise.
Theorem C03_bitnot : forall s a, in_range s a = true ->
  exists n, ci_not (CI s a) = Ok (Some (CI s n)) /\ in_range s n = true
    /\ (forall i, 0 <= i < bits s -> Z.testbit n i = negb (Z.testbit a i)).
Proof. exact not_lemma. Qed.
Print Assumptions C03_bitnot.

(** C03. Shifts: left is multiplication modulo 2^bits, right is floor division;
    amounts outside [0,bits) are refused. *)
Theorem C03_shift : forall s a k, in_range s a = true ->
  (0 <= k < bits s ->
     exists l r, ci_shl true (CI s a) (CI s k) = Ok (Some (CI s l)) /\ ci_shr true (CI s a) (CI s k) = Ok (Some (CI s r))
       /\ in_range s l = true /\ in_range s r = true
       /\ l mod 2 ^ bits s = (a * 2 ^ k) mod 2 ^ bits s
       /\ r = a / 2 ^ k)
  /\ (~ (0 <= k < bits s) -> ci_shl true (CI s a) (CI s k) = Panic /\ ci_shr true (CI s a) (CI s k) = Panic).
Proof. exact shift_lemma. Qed.
Print Assumptions C03_shift.
Example C03_nonvacuous_bits :
  in_range I8 (-3) = true /\ ci_bitxor (CI I8 (-3)) (CI I8 5) = Ok (Some (CI I8 (-8)))
  /\ ci_not (CI U8 5) = Ok (Some (CI U8 250)) /\ ci_shl true (CI U8 255) (CI U8 1) = Ok (Some (CI U8 254)).
Proof. vm_compute. auto. Qed.

(** C03. Comparison is the mathematical order of the values, and only within one type. *)
Theorem C03_compare : forall s t a b,
  ci_cmp (CI s a) (CI s b) = Some (a ?= b) /\ (s <> t -> ci_cmp (CI s a) (CI t b) = None).
Proof.
  exact (fun s t a b => conj (ci_cmp_same s a b) (ci_cmp_diff s t a b)).
Qed.
Print Assumptions C03_compare.

(** C03. Constants of different types never combine. *)
Theorem C03_mixed_types_give_nothing : forall a b, ci_ty a <> ci_ty b -> forall chk,
  ci_add chk a b = Ok None /\ ci_sub chk a b = Ok None /\ ci_mul chk a b = Ok None /\
  ci_div a b = Ok None /\ ci_rem a b = Ok None /\ ci_shl chk a b = Ok None /\ ci_shr chk a b = Ok None /\
  ci_bitor a b = Ok None /\ ci_bitand a b = Ok None /\ ci_bitxor a b = Ok None /\ ci_cmp a b = None.
Proof. exact mixed_lemma. Qed.
Print Assumptions C03_mixed_types_give_nothing.

(** C03 is false when the compiler itself is built without overflow checks
    (release profile): the result wraps silently. *)
Theorem C03_release_profile_refuted : exists a b, ci_ok a /\ ci_ok b /\
  ci_ty a = ci_ty b /\ exists c, ci_add false a b = Ok (Some c) /\ ci_val c <> ci_val a + ci_val b.
Proof.
  exists (CI U8 255), (CI U8 1). unfold ci_ok. repeat split; try (vm_compute; congruence).
  exists (CI U8 0). vm_compute. split; congruence.
Qed.
Print Assumptions C03_release_profile_refuted.

(** C04. A decimal literal denotes its positional value, or is rejected when that
    does not fit; likewise 0x literals in base 16. [digits_of r l = Some ds] says l
    is a string of base-r digits with values ds. *)
Theorem C04_decimal_literal : forall s l ds, l <> [] -> digits_of 10 l = Some ds ->
  ci_parse s l = if in_range s (positional 10 ds) then Some (CI s (positional 10 ds)) else None.
Proof. exact parse_decimal_lemma. Qed.
Print Assumptions C04_decimal_literal.
Theorem C04_hex_literal : forall s l ds, l <> [] -> digits_of 16 l = Some ds ->
  ci_parse s (48 :: 120 :: l) = if in_range s (positional 16 ds) then Some (CI s (positional 16 ds)) else None.
Proof. exact parse_hex_lemma. Qed.
Print Assumptions C04_hex_literal.
(** C04. Printing a non-negative constant and parsing it gives it back. *)
Theorem C04_print_parse : forall s v, 0 <= v -> in_range s v = true ->
  ci_parse s (dec_string v) = Some (CI s v).
Proof. exact parse_print_lemma. Qed.
Print Assumptions C04_print_parse.
Example C04_nonvacuous : digits_of 10 [50; 53; 53] = Some [2; 5; 5] /\ dec_string 255 = [50; 53; 53]
  /\ ci_parse U8 [50; 53; 54] = None /\ ci_parse I8 [48; 120; 55; 102] = Some (CI I8 127).
Proof. vm_compute. auto. Qed.

(** C05. An implicitly allowed cast keeps the numeric value. *)
Theorem C05_implicit_cast_preserves_value : forall a t, ci_ok a ->
  can_implicit_cast_to (ci_ty a) t = true ->
  ci_cast a t = CI t (ci_val a) /\ ci_ok (ci_cast a t).
Proof. exact implicit_cast_preserves. Qed.
Print Assumptions C05_implicit_cast_preserves_value.
(** C05. Implicit casts are exactly same-signedness widenings. *)
Theorem C05_implicit_cast_iff_widening : forall s t,
  can_implicit_cast_to s t = true <-> is_signed s = is_signed t /\ (size s <= size t)%nat.
Proof. exact implicit_iff_subset. Qed.
Print Assumptions C05_implicit_cast_iff_widening.
(** C05. Explicit casts reduce modulo 2^bits into the target's range. *)
Theorem C05_explicit_cast_mod : forall a t,
  ci_ok (ci_cast a t) /\ ci_ty (ci_cast a t) = t
  /\ ci_val (ci_cast a t) mod 2 ^ bits t = ci_val a mod 2 ^ bits t.
Proof. exact cast_mod. Qed.
Print Assumptions C05_explicit_cast_mod.
Example C05_nonvacuous : ci_ok (CI I8 (-5)) /\ can_implicit_cast_to I8 I64 = true
  /\ ci_cast (CI I8 (-5)) I64 = CI I64 (-5) /\ ci_cast (CI I8 (-5)) U16 = CI U16 65531.
Proof. unfold ci_ok. vm_compute. repeat split; congruence. Qed.
