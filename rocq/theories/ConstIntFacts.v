(** Facts about compile-time integers. *)
From Verif Require Import Scalar ScalarFacts ConstInt.

Lemma scalar_eqb_eq a b : scalar_eqb a b = true <-> a = b.
Proof. destruct a, b; cbn; split; congruence. Qed.
Lemma scalar_eqb_refl a : scalar_eqb a a = true.
Proof. now apply scalar_eqb_eq. Qed.

(** ** Bitwise closure *)

(** the arithmetic shift that leaves only sign information *)
Definition hi (s : scalar) (v : Z) : Z := Z.shiftr v (if is_signed s then bits s - 1 else bits s).

Lemma pow_half_pos s : 0 < 2 ^ (bits s - 1).
Proof. apply Z.pow_pos_nonneg; pose proof (bits_pos s); lia. Qed.
Lemma pow_bits_pos s : 0 < 2 ^ bits s.
Proof. apply Z.pow_pos_nonneg; pose proof (bits_pos s); lia. Qed.

Lemma range_hi s v :
  in_range s v = true <-> (hi s v = 0 \/ (is_signed s = true /\ hi s v = -1)).
Proof.
  rewrite in_range_iff. unfold min_of, max_of, hi. pose proof (bits_pos s).
  pose proof (pow_half_pos s); pose proof (pow_bits_pos s).
  destruct (is_signed s); rewrite Z.shiftr_div_pow2 by lia; split; intros K.
  - destruct (Z.neg_nonneg_cases v).
    + right. split; [reflexivity|]. symmetry. apply Z.div_unique with (v + 2 ^ (bits s - 1)); lia.
    + left. apply Z.div_small. lia.
  - pose proof (Z.div_mod v (2 ^ (bits s - 1)) ltac:(lia)).
    pose proof (Z.mod_pos_bound v (2 ^ (bits s - 1)) ltac:(lia)).
    destruct K as [K|[_ K]]; rewrite K in *; lia.
  - left. apply Z.div_small. lia.
  - pose proof (Z.div_mod v (2 ^ bits s) ltac:(lia)).
    pose proof (Z.mod_pos_bound v (2 ^ bits s) ltac:(lia)).
    destruct K as [K|[K _]]; [rewrite K in *; lia | discriminate].
Qed.

Lemma bitwise_range s a b :
  in_range s a = true -> in_range s b = true ->
  in_range s (Z.lor a b) = true /\ in_range s (Z.land a b) = true /\ in_range s (Z.lxor a b) = true.
Proof.
  rewrite !range_hi. unfold hi. rewrite Z.shiftr_lor, Z.shiftr_land, Z.shiftr_lxor.
  intros [->|[Hs ->]] [->|[Hs' ->]]; cbn; repeat split; tauto.
Qed.

Lemma shiftr_range s a k : 0 <= k -> in_range s a = true -> in_range s (Z.shiftr a k) = true.
Proof.
  intros Hk. rewrite !in_range_iff. rewrite Z.shiftr_div_pow2 by lia.
  assert (0 < 2 ^ k) by (apply Z.pow_pos_nonneg; lia).
  unfold min_of, max_of. pose proof (pow_half_pos s). pose proof (pow_bits_pos s).
  destruct (is_signed s); intros [L U]; split.
  - apply Z.div_le_lower_bound; nia.
  - apply Z.div_le_upper_bound; nia.
  - apply Z.div_pos; lia.
  - apply Z.div_le_upper_bound; nia.
Qed.

Lemma not_value s v : in_range s v = true ->
  wrap s (Z.lnot v) = if is_signed s then -1 - v else 2 ^ bits s - 1 - v.
Proof.
  intros H. unfold Z.lnot. rewrite <- Z.sub_1_r.
  pose proof (pow_half_pos s); pose proof (pow_bits_split s).
  rewrite in_range_iff in H. unfold min_of, max_of in H.
  destruct (is_signed s) eqn:E.
  - replace (- v - 1) with (-1 - v) by lia. apply wrap_id. apply in_range_iff.
    unfold min_of, max_of. rewrite E. lia.
  - rewrite (wrap_eq_mod s _ (2 ^ bits s - 1 - v)).
    + apply wrap_id. apply in_range_iff. unfold min_of, max_of. rewrite E. lia.
    + replace (2 ^ bits s - 1 - v) with ((- v - 1) + 1 * 2 ^ bits s) by lia.
      symmetry. apply Z.mod_add. lia.
Qed.

(** ** Division stays in range *)
Lemma rem_range s a b : b <> 0 -> in_range s a = true -> in_range s (Z.rem a b) = true.
Proof.
  intros Hb. rewrite !in_range_iff.
  unfold min_of, max_of. pose proof (pow_half_pos s). pose proof (pow_bits_pos s).
  assert (Z.abs (Z.rem a b) <= Z.abs a).
  { pose proof (Z.quot_rem a b Hb).
    rewrite <- (Z.rem_abs a b Hb). apply Z.rem_le; lia. }
  destruct (Z.neg_nonneg_cases a) as [Hn|Hn].
  - pose proof (Z.rem_nonpos a b Hb ltac:(lia)). destruct (is_signed s); lia.
  - pose proof (Z.rem_nonneg a b Hb Hn). destruct (is_signed s); lia.
Qed.

(** ** Literals *)

Lemma in_range_0 s : in_range s 0 = true.
Proof. destruct s; reflexivity. Qed.

Lemma in_range_mono s x y z : in_range s x = true -> in_range s z = true ->
  x <= y <= z -> in_range s y = true.
Proof. rewrite !in_range_iff. lia. Qed.

Lemma digit_of_bound r c d : digit_of r c = Some d -> 0 <= d < r.
Proof.
  unfold digit_of.
  destruct ((48 <=? c) && (c <=? 57)) eqn:E1.
  - apply andb_true_iff in E1 as [A B]. apply Z.leb_le in A, B.
    destruct (Z.ltb_spec (c - 48) r); intros K; inversion K; lia.
  - destruct ((97 <=? c) && (c <=? 122)) eqn:E2.
    + apply andb_true_iff in E2 as [A B]. apply Z.leb_le in A, B.
      destruct (Z.ltb_spec (c - 97 + 10) r); intros K; inversion K; lia.
    + destruct ((65 <=? c) && (c <=? 90)) eqn:E3; [|discriminate].
      apply andb_true_iff in E3 as [A B]. apply Z.leb_le in A, B.
      destruct (Z.ltb_spec (c - 65 + 10) r); intros K; inversion K; lia.
Qed.

(** the digits of a literal, if all characters are digits *)
Fixpoint digits_of (r : Z) (l : list Z) : option (list Z) :=
  match l with
  | [] => Some []
  | c :: l => match digit_of r c, digits_of r l with
              | Some d, Some ds => Some (d :: ds)
              | _, _ => None
              end
  end.

(** positional value, most significant digit first *)
Definition positional (r : Z) (ds : list Z) : Z := fold_left (fun a d => a * r + d) ds 0.

Lemma fold_digits_ge r ds a : 2 <= r -> Forall (fun d => 0 <= d) ds -> 0 <= a ->
  a <= fold_left (fun a d => a * r + d) ds a.
Proof.
  intros Hr. revert a. induction ds as [|d ds IH]; intros a Hd Ha; cbn [fold_left]; [lia|].
  inversion Hd as [|? ? H1 H2]; subst.
  specialize (IH (a * r + d) H2 ltac:(nia)). nia.
Qed.

Lemma digits_of_nonneg r l ds : digits_of r l = Some ds -> Forall (fun d => 0 <= d) ds.
Proof.
  revert ds. induction l as [|c l IH]; cbn; intros ds.
  - intros K; inversion K; constructor.
  - destruct (digit_of r c) eqn:E; [|discriminate].
    destruct (digits_of r l) eqn:E2; [|discriminate].
    intros K; inversion K; subst. constructor; [apply digit_of_bound in E; lia | apply IH; reflexivity].
Qed.

Lemma digits_loop_pos s r l acc : 2 <= r -> 0 <= acc -> in_range s acc = true ->
  digits_loop s false r acc l =
  match digits_of r l with
  | None => None
  | Some ds => let v := fold_left (fun a d => a * r + d) ds acc in
               if in_range s v then Some v else None
  end.
Proof.
  intros Hr. revert acc. induction l as [|c l IH]; intros acc Ha Hin; cbn [digits_loop digits_of].
  - cbn. rewrite Hin. reflexivity.
  - destruct (digit_of r c) as [d|] eqn:Ed; [|reflexivity].
    apply digit_of_bound in Ed as Hd.
    destruct (in_range s (acc * r)) eqn:E1.
    + destruct (in_range s (acc * r + d)) eqn:E2.
      * rewrite IH by (try assumption; nia). destruct (digits_of r l) as [ds|]; reflexivity.
      * destruct (digits_of r l) as [ds|] eqn:Eds; [|reflexivity].
        cbn [fold_left].
        destruct (in_range s (fold_left _ ds (acc * r + d))) eqn:E3; [|reflexivity].
        exfalso. apply digits_of_nonneg in Eds.
        pose proof (fold_digits_ge r ds (acc * r + d) Hr Eds ltac:(nia)).
        rewrite (in_range_mono s 0 (acc * r + d) _ (in_range_0 s) E3) in E2; [discriminate|nia].
    + destruct (digits_of r l) as [ds|] eqn:Eds; [|reflexivity].
      cbn [fold_left].
      destruct (in_range s (fold_left _ ds (acc * r + d))) eqn:E3; [|reflexivity].
      exfalso. apply digits_of_nonneg in Eds.
      pose proof (fold_digits_ge r ds (acc * r + d) Hr Eds ltac:(nia)).
      rewrite (in_range_mono s 0 (acc * r) _ (in_range_0 s) E3) in E1; [discriminate|nia].
Qed.

(** decimal printing (Rust's Display for non-negative integers), by fuel on the
    number of digits *)
Fixpoint dec_digits (fuel : nat) (v : Z) : list Z :=
  match fuel with
  | O => []
  | S f => if v <? 10 then [v] else dec_digits f (v / 10) ++ [v mod 10]
  end.
Definition dec_string (v : Z) : list Z := map (fun d => d + 48) (dec_digits (S (Z.to_nat (Z.log2 v))) v).

Lemma dec_digits_spec fuel v : 0 <= v < 10 ^ Z.of_nat fuel ->
  positional 10 (dec_digits fuel v) = v /\ Forall (fun d => 0 <= d < 10) (dec_digits fuel v).
Proof.
  revert v. induction fuel as [|f IH]; intros v H.
  - cbn in *. replace v with 0 by lia. split; [reflexivity|constructor].
  - cbn [dec_digits]. destruct (Z.ltb_spec v 10) as [L|L].
    + split; [unfold positional; cbn; lia | repeat constructor; lia].
    + rewrite Nat2Z.inj_succ, Z.pow_succ_r in H by lia.
      destruct (IH (v / 10)) as [P Q].
      { split; [apply Z.div_pos; lia | apply Z.div_lt_upper_bound; lia]. }
      unfold positional in *. rewrite fold_left_app. cbn [fold_left]. rewrite P.
      pose proof (Z.div_mod v 10 ltac:(lia)).
      pose proof (Z.mod_pos_bound v 10 ltac:(lia)).
      split; [lia|]. apply Forall_app; split; [exact Q | repeat constructor; lia].
Qed.

Lemma dec_digits_nonempty fuel v : dec_digits (S fuel) v <> [].
Proof. cbn. destruct (v <? 10); [discriminate|]. intros H. apply app_eq_nil in H as [_ H]. discriminate. Qed.

Lemma dec_digits_fuel v : 0 <= v -> v < 10 ^ Z.of_nat (S (Z.to_nat (Z.log2 v))).
Proof.
  intros H. pose proof (Z.log2_nonneg v). rewrite Nat2Z.inj_succ, Z2Nat.id by lia.
  destruct (Z.eq_dec v 0) as [->|Hz]; [reflexivity|].
  pose proof (Z.log2_spec v ltac:(lia)) as [_ B].
  eapply Z.lt_le_trans; [exact B|]. apply Z.pow_le_mono_l. lia.
Qed.

Lemma digits_of_dec ds : Forall (fun d => 0 <= d < 10) ds ->
  digits_of 10 (map (fun d => d + 48) ds) = Some ds.
Proof.
  induction 1 as [|d ds Hd Hds IH]; [reflexivity|].
  cbn [map digits_of]. rewrite IH. unfold digit_of.
  replace ((48 <=? d + 48) && (d + 48 <=? 57)) with true by (symmetry; apply andb_true_iff; rewrite !Z.leb_le; lia).
  cbv zeta. replace (d + 48 - 48 <? 10) with true by (symmetry; apply Z.ltb_lt; lia).
  f_equal. f_equal. lia.
Qed.

Lemma from_str_radix_plain s r l : 2 <= r -> l <> [] ->
  match l with c :: _ => c <> 43 /\ c <> 45 | [] => True end ->
  from_str_radix s r l =
  match digits_of r l with
  | None => None
  | Some ds => if in_range s (positional r ds) then Some (positional r ds) else None
  end.
Proof.
  intros Hr Hl Hc.
  transitivity (digits_loop s false r 0 l).
  2: { rewrite digits_loop_pos by (try assumption; try lia; apply in_range_0). reflexivity. }
  destruct l as [|c r']; [congruence|]. destruct Hc as [H1 H2].
  apply Z.eqb_neq in H1, H2. unfold from_str_radix. rewrite H1, H2. cbn [orb andb].
  destruct r'; reflexivity.
Qed.

(** ** Whole-operator lemmas *)

Lemma biop_same f s a b :
  biop_map f (CI s a) (CI s b) = (let! v := f s a b in Ok (Some (CI s v))).
Proof. unfold biop_map. cbn [ci_ty ci_val]. rewrite scalar_eqb_refl. reflexivity. Qed.

Lemma biop_mixed f a b : ci_ty a <> ci_ty b -> biop_map f a b = Ok None.
Proof.
  intros H. unfold biop_map. destruct (scalar_eqb (ci_ty a) (ci_ty b)) eqn:E; [|reflexivity].
  apply scalar_eqb_eq in E. contradiction.
Qed.

Definition exact_or_panic (s : scalar) (v : Z) (r : ores) : Prop :=
  (min_of s <= v <= max_of s -> r = Ok (Some (CI s v))) /\
  (~ (min_of s <= v <= max_of s) -> r = Panic).

Lemma arith_exact s v : exact_or_panic s v (let! x := arith true s v in Ok (Some (CI s x))).
Proof.
  unfold exact_or_panic, arith. rewrite <- in_range_iff.
  destruct (in_range s v); cbn [bind]; split; intros H; try reflexivity; try discriminate;
  try (exfalso; apply H; reflexivity).
Qed.

Lemma arith_lemma s a b :
  exact_or_panic s (a + b) (ci_add true (CI s a) (CI s b)) /\
  exact_or_panic s (a - b) (ci_sub true (CI s a) (CI s b)) /\
  exact_or_panic s (a * b) (ci_mul true (CI s a) (CI s b)) /\
  (is_signed s = true -> exact_or_panic s (- a) (ci_neg true (CI s a))) /\
  (is_signed s = false -> ci_neg true (CI s a) = Panic).
Proof.
  unfold ci_add, ci_sub, ci_mul, ci_neg. rewrite !biop_same.
  split; [|split; [|split; [|split]]]; try apply arith_exact; cbn [ci_ty ci_val]; intros Hs; rewrite Hs; [apply arith_exact|reflexivity].
Qed.

Lemma div_lemma s a b : in_range s a = true -> in_range s b = true -> b <> 0 ->
  (exists q r, ci_div (CI s a) (CI s b) = Ok (Some (CI s q)) /\ ci_rem (CI s a) (CI s b) = Ok (Some (CI s r))
     /\ in_range s q = true /\ in_range s r = true
     /\ a = b * q + r /\ Z.abs r < Z.abs b /\ 0 <= r * a)
  \/ (a = min_of s /\ b = -1 /\ is_signed s = true /\ ci_div (CI s a) (CI s b) = Panic /\ ci_rem (CI s a) (CI s b) = Panic).
Proof.
  intros Ha Hb Hz. unfold ci_div, ci_rem. rewrite !biop_same. unfold rust_div, rust_rem.
  apply Z.eqb_neq in Hz as Hz'. rewrite Hz'.
  destruct (in_range s (a ÷ b)) eqn:E; cbn [bind].
  - left. exists (a ÷ b), (Z.rem a b). pose proof (Z.quot_rem a b Hz).
    pose proof (Z.rem_bound_abs a b Hz).
    repeat split; try assumption; try (apply rem_range; assumption).
    pose proof (Z.rem_sign_mul a b Hz). lia.
  - right. 
    assert (a = min_of s /\ b = -1 /\ is_signed s = true) as K.
    { rewrite in_range_iff in Ha, Hb. unfold in_range in E. apply andb_false_iff in E.
      rewrite !Z.leb_gt in E. revert Ha Hb E. unfold min_of, max_of.
      pose proof (pow_half_pos s). pose proof (pow_bits_pos s).
      pose proof (Z.quot_rem a b Hz). pose proof (Z.rem_bound_abs a b Hz).
      pose proof (Z.rem_sign_mul a b Hz).
      destruct (is_signed s).
      - intros Ha Hb E.
        assert (b = -1 \/ b <> -1) as [->|Hb1] by lia.
        + replace (a ÷ -1) with (- a) in E.
          * repeat split; try reflexivity; lia.
          * change (-1) with (- (1)). rewrite Z.quot_opp_r by lia. rewrite Z.quot_1_r. reflexivity.
        + exfalso. 
          assert (b = 1 \/ b <> 1) as [->|Hb2] by lia.
          { rewrite Z.quot_1_r in E. lia. }
          assert (2 * Z.abs (a ÷ b) <= Z.abs a).
          { rewrite <- Z.quot_abs by exact Hz.
            assert (Z.abs a ÷ Z.abs b <= Z.abs a ÷ 2) by (apply Z.quot_le_compat_l; lia).
            pose proof (Z.mul_quot_le (Z.abs a) 2 ltac:(lia) ltac:(lia)). lia. }
          lia.
      - intros Ha Hb E. exfalso.
        assert (0 <= a ÷ b) by (apply Z.quot_pos; lia).
        assert (a ÷ b <= a) by (rewrite Z.quot_div_nonneg by lia; apply Z.div_le_upper_bound; nia).
        lia. }
    destruct K as (? & ? & ?). repeat split; assumption.
Qed.

Lemma div_zero_lemma s a : ci_div (CI s a) (CI s 0) = Panic /\ ci_rem (CI s a) (CI s 0) = Panic.
Proof. unfold ci_div, ci_rem. rewrite !biop_same. split; reflexivity. Qed.

Lemma bitwise_lemma s a b : in_range s a = true -> in_range s b = true ->
  exists o n x, ci_bitor (CI s a) (CI s b) = Ok (Some (CI s o))
    /\ ci_bitand (CI s a) (CI s b) = Ok (Some (CI s n))
    /\ ci_bitxor (CI s a) (CI s b) = Ok (Some (CI s x))
    /\ in_range s o = true /\ in_range s n = true /\ in_range s x = true
    /\ (forall i, 0 <= i -> Z.testbit o i = (Z.testbit a i || Z.testbit b i)%bool
                          /\ Z.testbit n i = (Z.testbit a i && Z.testbit b i)%bool
                          /\ Z.testbit x i = xorb (Z.testbit a i) (Z.testbit b i)).
Proof.
  intros Ha Hb. exists (Z.lor a b), (Z.land a b), (Z.lxor a b).
  unfold ci_bitor, ci_bitand, ci_bitxor. rewrite !biop_same. cbn [bind].
  pose proof (bitwise_range s a b Ha Hb) as (A & B & C).
  repeat split; try assumption; auto using Z.lor_spec, Z.land_spec, Z.lxor_spec.
Qed.

Lemma not_lemma s a : in_range s a = true ->
  exists n, ci_not (CI s a) = Ok (Some (CI s n)) /\ in_range s n = true
    /\ (forall i, 0 <= i < bits s -> Z.testbit n i = negb (Z.testbit a i)).
Proof.
  intros Ha. exists (wrap s (Z.lnot a)). split; [reflexivity|]. split; [apply wrap_in_range|].
  intros i Hi.
  assert (Z.testbit (wrap s (Z.lnot a)) i = Z.testbit (Z.lnot a) i) as ->.
  { rewrite <- (Z.mod_pow2_bits_low (wrap s (Z.lnot a)) (bits s) i) by lia.
    rewrite wrap_mod. apply Z.mod_pow2_bits_low. lia. }
  apply Z.lnot_spec. lia.
Qed.

Lemma shift_lemma s a k : in_range s a = true ->
  (0 <= k < bits s ->
     exists l r, ci_shl true (CI s a) (CI s k) = Ok (Some (CI s l)) /\ ci_shr true (CI s a) (CI s k) = Ok (Some (CI s r))
       /\ in_range s l = true /\ in_range s r = true
       /\ l mod 2 ^ bits s = (a * 2 ^ k) mod 2 ^ bits s
       /\ r = a / 2 ^ k)
  /\ (~ (0 <= k < bits s) -> ci_shl true (CI s a) (CI s k) = Panic /\ ci_shr true (CI s a) (CI s k) = Panic).
Proof.
  intros Ha. unfold ci_shl, ci_shr. rewrite !biop_same. unfold rust_shl, rust_shr, shift_amount.
  split; intros Hk.
  - replace ((0 <=? k) && (k <? bits s)) with true.
    2: { symmetry. apply andb_true_iff. rewrite Z.leb_le, Z.ltb_lt. lia. }
    cbn [bind]. exists (wrap s (Z.shiftl a k)), (Z.shiftr a k).
    repeat split; try reflexivity.
    + apply wrap_in_range.
    + apply shiftr_range; [lia|exact Ha].
    + rewrite wrap_mod, Z.shiftl_mul_pow2 by lia. reflexivity.
    + apply Z.shiftr_div_pow2. lia.
  - replace ((0 <=? k) && (k <? bits s)) with false; [split; reflexivity|].
    symmetry. apply andb_false_iff. rewrite Z.leb_gt, Z.ltb_ge. lia.
Qed.

Lemma mixed_lemma a b : ci_ty a <> ci_ty b -> forall chk,
  ci_add chk a b = Ok None /\ ci_sub chk a b = Ok None /\ ci_mul chk a b = Ok None /\
  ci_div a b = Ok None /\ ci_rem a b = Ok None /\ ci_shl chk a b = Ok None /\ ci_shr chk a b = Ok None /\
  ci_bitor a b = Ok None /\ ci_bitand a b = Ok None /\ ci_bitxor a b = Ok None /\ ci_cmp a b = None.
Proof.
  intros H chk. repeat split; try (apply biop_mixed; exact H).
  unfold ci_cmp. destruct (scalar_eqb (ci_ty a) (ci_ty b)) eqn:E; [|reflexivity].
  apply scalar_eqb_eq in E. contradiction.
Qed.

(** ** Literals: whole lemmas *)

(** spelled decimal literal: non-empty, digits only *)
Lemma parse_decimal_lemma s l ds : l <> [] -> digits_of 10 l = Some ds ->
  ci_parse s l = if in_range s (positional 10 ds) then Some (CI s (positional 10 ds)) else None.
Proof.
  intros Hl Hd. unfold ci_parse.
  assert (match l with c :: _ => c <> 43 /\ c <> 45 | [] => True end) as Hc.
  { destruct l as [|c r]; [exact I|]. cbn in Hd. destruct (digit_of 10 c) eqn:E; [|discriminate].
    split; intros ->; discriminate E. }
  assert ((match l with
     | c0 :: c1 :: r => if (c0 =? 48) && (c1 =? 120) then from_str_radix s 16 r else from_str_radix s 10 l
     | _ => from_str_radix s 10 l
     end) = from_str_radix s 10 l) as ->.
  { destruct l as [|c0 [|c1 r]]; try reflexivity.
    destruct ((c0 =? 48) && (c1 =? 120)) eqn:E; [|reflexivity].
    apply andb_true_iff in E as [_ E]. apply Z.eqb_eq in E. subst c1.
    cbn in Hd. destruct (digit_of 10 c0); discriminate Hd. }
  rewrite from_str_radix_plain by (try assumption; lia). rewrite Hd.
  destruct (in_range s (positional 10 ds)); reflexivity.
Qed.

Lemma parse_hex_lemma s l ds : l <> [] -> digits_of 16 l = Some ds ->
  ci_parse s (48 :: 120 :: l) = if in_range s (positional 16 ds) then Some (CI s (positional 16 ds)) else None.
Proof.
  intros Hl Hd. unfold ci_parse. cbn [Z.eqb Pos.eqb andb].
  assert (match l with c :: _ => c <> 43 /\ c <> 45 | [] => True end) as Hc.
  { destruct l as [|c r]; [exact I|]. cbn in Hd. destruct (digit_of 16 c) eqn:E; [|discriminate].
    split; intros ->; discriminate E. }
  rewrite from_str_radix_plain by (try assumption; lia). rewrite Hd.
  destruct (in_range s (positional 16 ds)); reflexivity.
Qed.

Lemma parse_print_lemma s v : 0 <= v -> in_range s v = true -> ci_parse s (dec_string v) = Some (CI s v).
Proof.
  intros Hv Hin. unfold dec_string.
  pose proof (dec_digits_spec (S (Z.to_nat (Z.log2 v))) v (conj Hv (dec_digits_fuel v Hv))) as [P Q].
  rewrite (parse_decimal_lemma s _ (dec_digits (S (Z.to_nat (Z.log2 v))) v)).
  - rewrite P, Hin. reflexivity.
  - intros E. apply map_eq_nil in E. exact (dec_digits_nonempty _ _ E).
  - apply digits_of_dec. exact Q.
Qed.

(** ** Casts *)
Lemma implicit_cast_preserves a t : ci_ok a -> can_implicit_cast_to (ci_ty a) t = true ->
  ci_cast a t = CI t (ci_val a) /\ ci_ok (ci_cast a t).
Proof.
  destruct a as [s v]. unfold ci_ok, ci_cast. cbn [ci_ty ci_val]. intros H C.
  assert (in_range t v = true) as R.
  { apply in_range_iff. unfold can_implicit_cast_to in C.
    destruct s, t; cbn in C; try discriminate C; revert H; unfold min_of, max_of, bits; cbn; lia. }
  rewrite wrap_id by exact R. split; [reflexivity|]. apply in_range_iff, R.
Qed.

Lemma cast_mod a t : ci_ok (ci_cast a t) /\ ci_ty (ci_cast a t) = t
  /\ ci_val (ci_cast a t) mod 2 ^ bits t = ci_val a mod 2 ^ bits t.
Proof.
  unfold ci_ok, ci_cast; cbn. repeat split; try (apply in_range_iff, wrap_in_range). apply wrap_mod.
Qed.

Lemma implicit_iff_subset s t :
  can_implicit_cast_to s t = true <-> is_signed s = is_signed t /\ (size s <= size t)%nat.
Proof. destruct s, t; cbn; split; intros; try discriminate; repeat split; try lia; try reflexivity; destruct H; try discriminate; lia. Qed.

Lemma ci_cmp_same s a b : ci_cmp (CI s a) (CI s b) = Some (a ?= b).
Proof. unfold ci_cmp. cbn [ci_ty ci_val]. now destruct s. Qed.
Lemma ci_cmp_diff s t a b : s <> t -> ci_cmp (CI s a) (CI t b) = None.
Proof. unfold ci_cmp. cbn [ci_ty ci_val]. destruct s, t; cbn; congruence. Qed.
