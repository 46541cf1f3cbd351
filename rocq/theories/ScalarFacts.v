(** Facts about scalar codecs. *)
From Verif Require Import Scalar.

Lemma bits_pos s : 8 <= bits s.
Proof. destruct s; unfold bits; cbn; lia. Qed.

Lemma pow_bits_split s : 2 ^ bits s = 2 * 2 ^ (bits s - 1).
Proof.
  pose proof (bits_pos s). rewrite <- Z.pow_succ_r by lia. f_equal. lia.
Qed.

Lemma in_range_iff s v : in_range s v = true <-> min_of s <= v <= max_of s.
Proof. unfold in_range. rewrite andb_true_iff, !Z.leb_le. tauto. Qed.

Lemma wrap_in_range s v : in_range s (wrap s v) = true.
Proof.
  apply in_range_iff. unfold wrap, min_of, max_of.
  pose proof (pow_bits_split s) as Hp.
  assert (0 < 2 ^ (bits s - 1)) by (apply Z.pow_pos_nonneg; pose proof (bits_pos s); lia).
  pose proof (Z.mod_pos_bound v (2 ^ bits s) ltac:(lia)) as Hm.
  destruct (is_signed s); cbn [andb].
  - destruct (Z.leb_spec (2 ^ (bits s - 1)) (v mod 2 ^ bits s)); lia.
  - lia.
Qed.

Lemma wrap_id s v : in_range s v = true -> wrap s v = v.
Proof.
  rewrite in_range_iff. unfold wrap, min_of, max_of.
  pose proof (pow_bits_split s) as Hp.
  assert (0 < 2 ^ (bits s - 1)) by (apply Z.pow_pos_nonneg; pose proof (bits_pos s); lia).
  destruct (is_signed s); cbn [andb]; intros H1.
  - destruct (Z.neg_nonneg_cases v) as [Hn|Hn].
    + replace (v mod 2 ^ bits s) with (v + 2 ^ bits s).
      * destruct (Z.leb_spec (2 ^ (bits s - 1)) (v + 2 ^ bits s)); lia.
      * rewrite <- (Z.mod_small (v + 2 ^ bits s) (2 ^ bits s)) by lia.
        rewrite <- Z.add_mod_idemp_r by lia. rewrite Z.mod_same by lia. f_equal. lia.
    + rewrite Z.mod_small by lia.
      destruct (Z.leb_spec (2 ^ (bits s - 1)) v); lia.
  - apply Z.mod_small. lia.
Qed.

Lemma wrap_mod s v : wrap s v mod 2 ^ bits s = v mod 2 ^ bits s.
Proof.
  assert (0 < 2 ^ bits s) by (apply Z.pow_pos_nonneg; pose proof (bits_pos s); lia).
  unfold wrap. destruct (is_signed s && _).
  - rewrite <- (Z.mod_mod v (2 ^ bits s)) at 2 by lia.
    replace (v mod 2 ^ bits s - 2 ^ bits s) with (v mod 2 ^ bits s + (-1) * 2 ^ bits s) by lia.
    apply Z.mod_add. lia.
  - apply Z.mod_mod. lia.
Qed.

Lemma wrap_eq_mod s v w : v mod 2 ^ bits s = w mod 2 ^ bits s -> wrap s v = wrap s w.
Proof. intros H. unfold wrap. rewrite H. reflexivity. Qed.

Lemma le_bytes_length n v : length (le_bytes n v) = n.
Proof. revert v; induction n as [|n IH]; intros v; cbn; [reflexivity|]. now rewrite IH. Qed.

Lemma le_bytes_ok n v : bytes_ok (le_bytes n v).
Proof.
  revert v; induction n as [|n IH]; intros v; cbn; constructor.
  - unfold byte_ok. apply Z.mod_pos_bound. lia.
  - apply IH.
Qed.

Lemma pow256_S n : 2 ^ (8 * Z.of_nat (S n)) = 256 * 2 ^ (8 * Z.of_nat n).
Proof.
  replace (8 * Z.of_nat (S n)) with (8 + 8 * Z.of_nat n) by lia.
  rewrite Z.pow_add_r by lia. reflexivity.
Qed.

Lemma pow256_pos n : 0 < 2 ^ (8 * Z.of_nat n).
Proof. apply Z.pow_pos_nonneg; lia. Qed.

Lemma le_value_le_bytes n v : le_value (le_bytes n v) = v mod 2 ^ (8 * Z.of_nat n).
Proof.
  revert v; induction n as [|n IH]; intros v.
  - change (8 * Z.of_nat 0) with 0. rewrite Z.pow_0_r, Z.mod_1_r. reflexivity.
  - cbn [le_bytes le_value]. rewrite IH, pow256_S.
    rewrite Z.rem_mul_r by (try lia; pose proof (pow256_pos n); lia). lia.
Qed.

Lemma le_value_bound l : bytes_ok l -> 0 <= le_value l < 2 ^ (8 * Z.of_nat (length l)).
Proof.
  induction l as [|b l IH]; intros H.
  - cbn. lia.
  - inversion H as [|? ? Hb Hl]; subst. specialize (IH Hl). cbn [length le_value].
    rewrite pow256_S. unfold byte_ok in Hb. nia.
Qed.

Lemma le_bytes_le_value l v : bytes_ok l ->
  v mod 2 ^ (8 * Z.of_nat (length l)) = le_value l -> le_bytes (length l) v = l.
Proof.
  revert v; induction l as [|b l IH]; intros v H E; [reflexivity|].
  inversion H as [|? ? Hb Hl]; subst. cbn [length le_bytes le_value] in *.
  rewrite pow256_S in E.
  rewrite Z.rem_mul_r in E by (try lia; pose proof (pow256_pos (length l)); lia).
  unfold byte_ok in Hb.
  pose proof (Z.mod_pos_bound v 256 ltac:(lia)) as Hm.
  assert (v mod 256 = b /\ (v / 256) mod 2 ^ (8 * Z.of_nat (length l)) = le_value l) as [E1 E2] by lia.
  f_equal; [exact E1|]. apply IH; assumption.
Qed.

Lemma scalar_bytes_length t v : length (scalar_bytes t v) = size (es_scalar t).
Proof. unfold scalar_bytes; destruct (es_endian t); rewrite ?rev_length; apply le_bytes_length. Qed.

Lemma scalar_bytes_ok t v : bytes_ok (scalar_bytes t v).
Proof.
  unfold scalar_bytes; destruct (es_endian t); [apply Forall_rev|]; apply le_bytes_ok.
Qed.

Lemma scalar_of_bytes_bytes t v : in_range (es_scalar t) v = true ->
  scalar_of_bytes t (scalar_bytes t v) = v.
Proof.
  intros H. unfold scalar_of_bytes, scalar_bytes.
  assert (wrap (es_scalar t) (le_value (le_bytes (size (es_scalar t)) v)) = v) as E.
  { rewrite le_value_le_bytes. fold (bits (es_scalar t)).
    rewrite <- (wrap_id _ v H) at 2. apply wrap_eq_mod. apply Z.mod_mod.
    pose proof (pow256_pos (size (es_scalar t))). unfold bits. lia. }
  destruct (es_endian t); rewrite ?rev_involutive; exact E.
Qed.

Lemma scalar_bytes_of_bytes t l : bytes_ok l -> length l = size (es_scalar t) ->
  scalar_bytes t (scalar_of_bytes t l) = l.
Proof.
  intros H Hl. unfold scalar_bytes, scalar_of_bytes.
  assert (forall m, bytes_ok m -> length m = size (es_scalar t) ->
    le_bytes (size (es_scalar t)) (wrap (es_scalar t) (le_value m)) = m) as K.
  { intros m Hm Hlm. rewrite <- Hlm. apply le_bytes_le_value; [exact Hm|].
    rewrite Hlm. fold (bits (es_scalar t)). rewrite wrap_mod.
    pose proof (le_value_bound m Hm) as B. rewrite Hlm in B. fold (bits (es_scalar t)) in B.
    apply Z.mod_small. lia. }
  destruct (es_endian t).
  - rewrite K; [apply rev_involutive | apply Forall_rev; exact H | rewrite rev_length; exact Hl].
  - apply K; assumption.
Qed.

Lemma decode_scalar_roundtrip t v rest : in_range (es_scalar t) v = true ->
  decode_scalar t (scalar_bytes t v ++ rest) = Ok (v, rest).
Proof.
  intros H. unfold decode_scalar. rewrite read_exact_app by apply scalar_bytes_length.
  cbn [bind]. rewrite scalar_of_bytes_bytes by exact H. reflexivity.
Qed.

Lemma decode_scalar_in_range t l v rest : decode_scalar t l = Ok (v, rest) ->
  in_range (es_scalar t) v = true.
Proof.
  unfold decode_scalar. destruct (read_exact _ l) as [[a b]| | |]; cbn; try discriminate.
  intros E. injection E as <- <-. apply wrap_in_range.
Qed.

Lemma decode_scalar_reencode t l v rest : bytes_ok l -> decode_scalar t l = Ok (v, rest) ->
  l = scalar_bytes t v ++ rest.
Proof.
  intros Hl. unfold decode_scalar.
  destruct (read_exact _ l) as [[a b]| | |] eqn:E; cbn; try discriminate.
  intros E'. injection E' as <- <-. apply read_exact_ok in E as [-> Ha].
  rewrite scalar_bytes_of_bytes; [reflexivity | | exact Ha].
  apply Forall_app in Hl. apply Hl.
Qed.

Lemma decode_scalar_total t l :
  (exists v rest, decode_scalar t l = Ok (v, rest) /\ (size (es_scalar t) <= length l)%nat)
  \/ (decode_scalar t l = Err EEof /\ (length l < size (es_scalar t))%nat).
Proof.
  unfold decode_scalar. destruct (read_exact_cases (size (es_scalar t)) l) as [(a & b & E & -> & Ha)|[E H]].
  - left. rewrite E. cbn. exists (scalar_of_bytes t a), b. split; [reflexivity|].
    rewrite app_length. lia.
  - right. rewrite E. split; [reflexivity|exact H].
Qed.

(** Reading big-endian bytes as base-256 digits, most significant first. *)
Definition base256 (l : list Z) : Z := fold_left (fun acc b => 256 * acc + b) l 0.

Lemma base256_rev l : base256 (rev l) = le_value l.
Proof.
  unfold base256. induction l as [|b l IH]; [reflexivity|].
  cbn [rev le_value]. rewrite fold_left_app. cbn [fold_left]. rewrite IH. lia.
Qed.
