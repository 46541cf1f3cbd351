(** Facts about the prelude. *)
From Verif Require Import Scalar ScalarFacts ConstInt ConstIntFacts Prelude.
From Coq Require Import Permutation.

(** ** VarInt *)

Lemma unsigned_bits s : bits (unsigned_of s) = bits s.
Proof. destruct s; reflexivity. Qed.
Lemma unsigned_unsigned s : is_signed (unsigned_of s) = false.
Proof. destruct s; reflexivity. Qed.
Lemma wrap_unsigned s v : wrap (unsigned_of s) v = v mod 2 ^ bits s.
Proof. unfold wrap. rewrite unsigned_unsigned, unsigned_bits. reflexivity. Qed.

Lemma land127 v : Z.land v 127 = v mod 128.
Proof. change 127 with (Z.ones 7). apply Z.land_ones. lia. Qed.

Lemma shiftr7 v : Z.shiftr v 7 = v / 128.
Proof. rewrite Z.shiftr_div_pow2 by lia. reflexivity. Qed.

(** testing the bits above the lowest seven *)
Lemma high_bits_zero s v : 0 <= v < 2 ^ bits s ->
  (Z.land v (wrap (unsigned_of s) (Z.lnot 127)) =? 0) = (v <? 128).
Proof.
  intros H. rewrite wrap_unsigned. pose proof (bits_pos s).
  rewrite <- Z.land_ones by lia.
  replace (Z.land v (Z.land (Z.lnot 127) (Z.ones (bits s)))) with (Z.ldiff v (Z.ones 7)).
  2: { rewrite Z.ldiff_land. change (Z.ones 7) with 127.
       rewrite (Z.land_comm (Z.lnot 127)), Z.land_assoc.
       rewrite (Z.land_ones v) by lia. rewrite (Z.mod_small v) by lia. reflexivity. }
  rewrite Z.ldiff_ones_r by lia. rewrite Z.shiftl_mul_pow2, Z.shiftr_div_pow2 by lia.
  change (2 ^ 7) with 128.
  destruct (Z.ltb_spec v 128).
  - rewrite Z.div_small by lia. reflexivity.
  - apply Z.eqb_neq. pose proof (Z.div_le_lower_bound v 128 1 ltac:(lia) ltac:(lia)). lia.
Qed.

Lemma lor128 d : 0 <= d < 128 -> Z.lor d 128 = d + 128.
Proof.
  intros H. assert (Z.land d 128 = 0) as E.
  { replace d with (Z.land d (Z.ones 7)) by (rewrite Z.land_ones by lia; apply Z.mod_small; lia).
    rewrite <- Z.land_assoc. change (Z.land (Z.ones 7) 128) with 0. apply Z.land_0_r. }
  rewrite <- Z.lxor_lor by exact E. symmetry. apply Z.add_nocarry_lxor. exact E.
Qed.

(** plain arithmetic rendition of the encoder: seven-bit groups *)
Fixpoint groups (fuel : nat) (v : Z) : list Z :=
  match fuel with
  | O => []
  | S f => if v <? 128 then [v] else (v mod 128 + 128) :: groups f (v / 128)
  end.

Lemma wrapU8_mod v : wrap U8 v = v mod 256.
Proof. reflexivity. Qed.

Lemma mod_256_128 v : (v mod 256) mod 128 = v mod 128.
Proof.
  change 256 with (128 * 2). rewrite Z.rem_mul_r by lia.
  rewrite Z.mul_comm, Z.mod_add by lia. apply Z.mod_mod. lia.
Qed.

Lemma varint_write_groups fuel s v : 0 <= v < 2 ^ bits s -> v < 128 ^ Z.of_nat fuel -> (0 < fuel)%nat ->
  varint_write fuel (unsigned_of s) v = Ok (groups fuel v).
Proof.
  revert v. induction fuel as [|f IH]; intros v H Hf H0; [lia|].
  cbn [varint_write groups]. rewrite high_bits_zero by exact H.
  destruct (Z.ltb_spec v 128) as [L|L].
  - rewrite wrapU8_mod, Z.mod_small by lia. reflexivity.
  - rewrite shiftr7. rewrite Nat2Z.inj_succ, Z.pow_succ_r in Hf by lia.
    rewrite IH.
    + cbn [bind]. rewrite land127, wrapU8_mod, mod_256_128.
      rewrite lor128 by (apply Z.mod_pos_bound; lia). reflexivity.
    + split; [apply Z.div_pos; lia|]. apply Z.le_lt_trans with v; [|lia].
      apply Z.div_le_upper_bound; lia.
    + apply Z.div_lt_upper_bound; lia.
    + destruct f; [cbn in Hf; lia | lia].
Qed.

Lemma pow_bits_128_32 s : 2 ^ bits s < 128 ^ Z.of_nat 32.
Proof. destruct s; vm_compute; reflexivity. Qed.

Lemma varint_encode_groups s v : varint_encode s v = Ok (groups 32 (v mod 2 ^ bits s)).
Proof.
  unfold varint_encode. rewrite wrap_unsigned.
  pose proof (Z.mod_pos_bound v (2 ^ bits s) (pow_bits_pos s)).
  apply varint_write_groups; [lia | pose proof (pow_bits_128_32 s); lia | lia].
Qed.

(** value spelled by seven-bit groups, least significant first *)
Fixpoint group_value (l : list Z) : Z :=
  match l with
  | [] => 0
  | b :: l => b mod 128 + 128 * group_value l
  end.

Lemma groups_spec fuel v : 0 <= v < 128 ^ Z.of_nat fuel -> (0 < fuel)%nat ->
  exists init last, groups fuel v = init ++ [last]
    /\ Forall (fun b => 128 <= b < 256) init /\ 0 <= last < 128
    /\ group_value (groups fuel v) = v
    /\ (init <> [] -> last <> 0).
Proof.
  revert v. induction fuel as [|f IH]; intros v H H0; [lia|].
  cbn [groups]. destruct (Z.ltb_spec v 128) as [L|L].
  - exists [], v. repeat split; try constructor; try lia; cbn; try congruence.
    rewrite Z.mod_small by lia. lia.
  - rewrite Nat2Z.inj_succ, Z.pow_succ_r in H by lia.
    destruct f as [|f']; [cbn in H; lia|].
    destruct (IH (v / 128)) as (init & last & E & F & B & V & N).
    { split; [apply Z.div_pos; lia | apply Z.div_lt_upper_bound; lia]. }
    { lia. }
    remember (groups (S f') (v / 128)) as g. exists ((v mod 128 + 128) :: init), last.
    pose proof (Z.mod_pos_bound v 128 ltac:(lia)).
    repeat split.
    + rewrite E. reflexivity.
    + constructor; [lia|exact F].
    + lia.
    + lia.
    + cbn [group_value]. rewrite V.
      replace ((v mod 128 + 128) mod 128) with (v mod 128).
      * pose proof (Z.div_mod v 128 ltac:(lia)). lia.
      * rewrite <- (Z.mul_1_l 128) at 3. rewrite Z.mod_add by lia. rewrite Z.mod_mod by lia. reflexivity.
    + intros _. destruct init as [|i0 init']; [|apply N; discriminate].
      intros ->. assert (v / 128 = 0) as Z0.
      { rewrite E in V. cbn in V. lia. }
      apply Z.div_small_iff in Z0; lia.
Qed.

Lemma group_value_bound ds : 0 <= group_value ds < 128 ^ Z.of_nat (length ds).
Proof.
  induction ds as [|d ds IH]; [cbn; lia|].
  cbn [group_value length]. rewrite Nat2Z.inj_succ, Z.pow_succ_r by lia.
  pose proof (Z.mod_pos_bound d 128 ltac:(lia)). nia.
Qed.

Lemma group_value_app a b : group_value (a ++ b) = group_value a + 128 ^ Z.of_nat (length a) * group_value b.
Proof.
  induction a as [|x a IH]; [cbn [app length group_value]; change (128 ^ Z.of_nat 0) with 1; lia|].
  cbn [app group_value length]. rewrite IH, Nat2Z.inj_succ, Z.pow_succ_r by lia. nia.
Qed.

Lemma groups_minimal fuel v ds : 0 <= v < 128 ^ Z.of_nat fuel -> (0 < fuel)%nat ->
  ds <> [] -> group_value ds = v -> (length (groups fuel v) <= length ds)%nat.
Proof.
  intros H H0 Hd E.
  destruct (groups_spec fuel v H H0) as (init & last & G & F & B & V & N).
  rewrite G, app_length. cbn [length].
  destruct init as [|x init'] eqn:Ei.
  - cbn. destruct ds; [congruence|cbn; lia].
  - rewrite <- Ei in *. assert (init <> []) as Hi by (rewrite Ei; discriminate).
    specialize (N Hi).
    rewrite G, group_value_app in V. cbn [group_value] in V. rewrite Z.mod_small in V by lia.
    pose proof (group_value_bound init) as Bi. pose proof (group_value_bound ds) as Bd.
    assert (128 ^ Z.of_nat (length init) <= v) by nia.
    assert (Z.of_nat (length init) < Z.of_nat (length ds)).
    { apply (Z.pow_lt_mono_r_iff 128); lia. }
    lia.
Qed.

Lemma lor_mod a b k : 0 <= k -> Z.lor a b mod 2 ^ k = Z.lor (a mod 2 ^ k) (b mod 2 ^ k).
Proof. intros. rewrite <- !Z.land_ones by lia. apply Z.land_lor_distr_l. Qed.

Lemma lor_wrap s a b : Z.lor (wrap s a) (wrap s b) = wrap s (Z.lor a b).
Proof.
  rewrite <- (wrap_id s (Z.lor (wrap s a) (wrap s b))).
  - apply wrap_eq_mod. pose proof (bits_pos s).
    rewrite !lor_mod by lia. rewrite !wrap_mod. reflexivity.
  - apply bitwise_range; apply wrap_in_range.
Qed.

Lemma lor_disjoint a d k : 0 <= k -> 0 <= a < 2 ^ k -> Z.lor a (Z.shiftl d k) = a + d * 2 ^ k.
Proof.
  intros Hk Ha.
  assert (Z.land a (Z.shiftl d k) = 0) as E.
  { replace a with (Z.land a (Z.ones k)) by (rewrite Z.land_ones by lia; apply Z.mod_small; lia).
    rewrite <- Z.land_assoc. rewrite (Z.land_comm (Z.ones k)).
    rewrite Z.land_ones by lia. rewrite Z.shiftl_mul_pow2 by lia.
    rewrite Z.mod_mul by (apply Z.pow_nonzero; lia). apply Z.land_0_r. }
  rewrite <- Z.lxor_lor by exact E.
  rewrite <- Z.add_nocarry_lxor by exact E. rewrite Z.shiftl_mul_pow2 by lia. reflexivity.
Qed.

Lemma wrap_wrap_unsigned s v : wrap s (wrap (unsigned_of s) v) = wrap s v.
Proof.
  apply wrap_eq_mod. rewrite wrap_unsigned. apply Z.mod_mod. pose proof (pow_bits_pos s). lia.
Qed.

Lemma pow128 i : 128 ^ Z.of_nat i = 2 ^ (Z.of_nat i * 7).
Proof. change 128 with (2 ^ 7). rewrite <- Z.pow_mul_r by lia. f_equal. lia. Qed.

Lemma land128 b : 0 <= b < 256 -> (Z.land b 128 =? 128) = (128 <=? b).
Proof.
  intros H.
  assert (forallb (fun n => Bool.eqb (Z.land (Z.of_nat n) 128 =? 128) (128 <=? Z.of_nat n)) (seq 0 256) = true) as K
    by (vm_compute; reflexivity).
  rewrite forallb_forall in K. specialize (K (Z.to_nat b)).
  rewrite Z2Nat.id in K by lia. apply Bool.eqb_prop. apply K. apply in_seq. lia.
Qed.

Lemma wrap_unsigned_byte s b : 0 <= b < 256 -> wrap (unsigned_of s) b = b.
Proof.
  intros H. rewrite wrap_unsigned. apply Z.mod_small.
  assert (2 ^ 8 <= 2 ^ bits s) by (apply Z.pow_le_mono_r; [lia|apply bits_pos]).
  change (2 ^ 8) with 256 in *. lia.
Qed.

Lemma read_exact_1_cons b l : read_exact 1 (b :: l) = Ok ([b], l).
Proof. reflexivity. Qed.

(** one step of the read loop in arithmetic form *)
Lemma varint_step s i acc b : 0 <= b < 256 -> 0 <= acc < 128 ^ Z.of_nat i ->
  Z.lor (wrap s acc)
    (wrap s (wrap (unsigned_of s)
       (Z.shiftl (Z.land (wrap (unsigned_of s) b) 127) (Z.of_nat i * 7))))
  = wrap s (acc + 128 ^ Z.of_nat i * (b mod 128)).
Proof.
  intros Hb Ha. rewrite (wrap_unsigned_byte s b Hb), wrap_wrap_unsigned, lor_wrap, land127.
  rewrite pow128 in Ha |- *. rewrite lor_disjoint by lia. f_equal. lia.
Qed.

(** Reading [i] bytes already taken: the loop over a terminated group list. *)
Lemma varint_read_spec s : forall init last rest fuel i acc,
  Forall (fun b => 128 <= b < 256) init -> 0 <= last < 128 ->
  0 <= acc < 128 ^ Z.of_nat i -> (i <= varint_end s)%nat ->
  (S (varint_end s) - i <= fuel)%nat ->
  varint_read fuel s i (wrap s acc) (init ++ last :: rest) =
  Ok (wrap s (acc + 128 ^ Z.of_nat i * (group_value (firstn (S (varint_end s) - i) (init ++ [last])))),
      skipn (S (varint_end s) - i) (init ++ [last]) ++ rest).
Proof.
  induction init as [|b init IH]; intros last rest fuel i acc Hi Hl Ha Hie Hf.
  - destruct fuel as [|f]; [lia|]. cbn [app varint_read].
    rewrite read_exact_1_cons. cbn [bind hd].
    rewrite varint_step by (try assumption; lia).
    replace (S (varint_end s) - i)%nat with (S (varint_end s - i))%nat by lia.
    cbn [firstn skipn]. rewrite firstn_nil, skipn_nil. cbn [group_value app].
    replace (last mod 128 + 128 * 0) with (last mod 128) by lia.
    destruct (varint_end s <? S i)%nat; [reflexivity|].
    rewrite land128 by lia. destruct (Z.leb_spec 128 last); [lia|reflexivity].
  - destruct fuel as [|f]; [lia|]. inversion Hi as [|? ? Hb Hi']; subst.
    cbn [app varint_read]. rewrite read_exact_1_cons. cbn [bind hd].
    rewrite varint_step by (try assumption; lia).
    replace (S (varint_end s) - i)%nat with (S (varint_end s - i))%nat by lia.
    cbn [firstn skipn group_value].
    destruct (Nat.ltb_spec (varint_end s) (S i)) as [L|L].
    + replace (varint_end s - i)%nat with 0%nat by lia. cbn [firstn skipn group_value].
      rewrite <- app_assoc. cbn [app].
      replace (b mod 128 + 128 * 0) with (b mod 128) by lia. reflexivity.
    + rewrite land128 by lia. destruct (Z.leb_spec 128 b); [|lia].
      rewrite IH; try assumption; try lia.
      * replace (S (varint_end s) - S i)%nat with (varint_end s - i)%nat by lia.
        rewrite Nat2Z.inj_succ, Z.pow_succ_r by lia.
        f_equal. f_equal. f_equal. nia.
      * rewrite Nat2Z.inj_succ, Z.pow_succ_r by lia.
        pose proof (Z.mod_pos_bound b 128 ltac:(lia)). nia.
Qed.

Lemma group_value_firstn k l : group_value (firstn k l) = group_value l mod 128 ^ Z.of_nat k.
Proof.
  revert l. induction k as [|k IH]; intros l.
  - cbn. now rewrite Z.mod_1_r.
  - destruct l as [|b l]; [cbn [firstn group_value]; symmetry; apply Z.mod_0_l; apply Z.pow_nonzero; lia|].
    cbn [firstn group_value]. rewrite IH, Nat2Z.inj_succ, Z.pow_succ_r by lia.
    assert (128 ^ Z.of_nat k <> 0) by (apply Z.pow_nonzero; lia).
    assert (0 < 128 ^ Z.of_nat k) by (apply Z.pow_pos_nonneg; lia).
    rewrite Z.rem_mul_r by lia.
    replace ((b mod 128 + 128 * group_value l) mod 128) with (b mod 128).
    2: { rewrite Z.mul_comm, Z.mod_add by lia. symmetry. apply Z.mod_mod. lia. }
    replace ((b mod 128 + 128 * group_value l) / 128) with (group_value l); [lia|].
    pose proof (Z.mod_pos_bound b 128 ltac:(lia)).
    apply Z.div_unique with (b mod 128); lia.
Qed.

(** The most bytes the decoder will take. *)
Definition varint_max (s : scalar) : nat := S (varint_end s).

Lemma varint_decode_encode s v rest :
  exists l, varint_encode s v = Ok l /\
    varint_decode s (l ++ rest) =
      Ok (wrap s ((v mod 2 ^ bits s) mod 128 ^ Z.of_nat (varint_max s)),
          skipn (varint_max s) l ++ rest).
Proof.
  rewrite varint_encode_groups. eexists; split; [reflexivity|].
  pose proof (Z.mod_pos_bound v (2 ^ bits s) (pow_bits_pos s)) as B.
  set (u := v mod 2 ^ bits s) in *.
  destruct (groups_spec 32 u) as (init & last & E & F & Bl & V & _).
  { pose proof (pow_bits_128_32 s). lia. } { lia. }
  unfold varint_decode. rewrite E, <- app_assoc. cbn [app].
  replace 0 with (wrap s 0) at 1 by (apply wrap_id; apply in_range_0).
  rewrite (varint_read_spec s init last rest 32 0 0); try assumption; try lia.
  - unfold varint_max. rewrite Nat.sub_0_r. rewrite group_value_firstn, <- E, V.
    f_equal. f_equal. f_equal. change (128 ^ Z.of_nat 0) with 1. lia.
  - destruct s; cbn; lia.
Qed.

Lemma varint_roundtrip_iff s v rest : in_range s v = true ->
  (exists l, varint_encode s v = Ok l /\ varint_decode s (l ++ rest) = Ok (v, rest))
  <-> v mod 2 ^ bits s < 128 ^ Z.of_nat (varint_max s).
Proof.
  intros Hv. destruct (varint_decode_encode s v rest) as (l & E & D).
  pose proof (Z.mod_pos_bound v (2 ^ bits s) (pow_bits_pos s)) as B.
  assert (0 < 128 ^ Z.of_nat (varint_max s)) as P by (apply Z.pow_pos_nonneg; lia).
  split.
  - intros (l' & E' & D'). rewrite E in E'. injection E' as <-. rewrite D in D'.
    injection D' as Dv _.
    apply (f_equal (fun x => x mod 2 ^ bits s)) in Dv. rewrite wrap_mod in Dv.
    pose proof (Z.mod_pos_bound (v mod 2 ^ bits s) (128 ^ Z.of_nat (varint_max s)) P).
    pose proof (Z.mod_le (v mod 2 ^ bits s) (128 ^ Z.of_nat (varint_max s)) ltac:(lia) P).
    cbv beta in Dv. set (u := v mod 2 ^ bits s) in *.
    rewrite (Z.mod_small (u mod 128 ^ Z.of_nat (varint_max s))) in Dv.
    + lia.
    + split; lia.
  - intros Hlt. exists l. split; [exact E|]. rewrite D.
    rewrite (Z.mod_small (v mod 2 ^ bits s)) by lia.
    assert (wrap s (v mod 2 ^ bits s) = v) as ->.
    { rewrite <- (wrap_id s v Hv) at 2. apply wrap_eq_mod. apply Z.mod_mod. lia. }
    replace (skipn (varint_max s) l) with (@nil Z); [reflexivity|].
    symmetry. apply skipn_all2.
    rewrite varint_encode_groups in E. apply Ok_inj in E. subst l.
    destruct (groups_spec 32 (v mod 2 ^ bits s)) as (init & last & G & F & Bl & V & N).
    { pose proof (pow_bits_128_32 s). lia. } { lia. }
    rewrite G, app_length. cbn [length].
    destruct init as [|x init'] eqn:Ei; [cbn; unfold varint_max; lia|]. rewrite <- Ei in *.
    assert (init <> []) as Hi by (rewrite Ei; discriminate). specialize (N Hi).
    rewrite G, group_value_app in V. cbn [group_value] in V. rewrite Z.mod_small in V by lia.
    pose proof (group_value_bound init).
    assert (Z.of_nat (length init) < Z.of_nat (varint_max s)).
    { apply (Z.pow_lt_mono_r_iff 128); try lia. nia. }
    lia.
Qed.

Lemma varint_shape_lemma s v : in_range s v = true ->
  exists init last, varint_encode s v = Ok (init ++ [last])
    /\ Forall (fun b => 128 <= b < 256) init /\ 0 <= last < 128
    /\ group_value (init ++ [last]) = v mod 2 ^ bits s
    /\ (forall ds, ds <> [] -> group_value ds = v mod 2 ^ bits s ->
          (length (init ++ [last]) <= length ds)%nat).
Proof.
  intros _. rewrite varint_encode_groups.
  pose proof (Z.mod_pos_bound v (2 ^ bits s) (pow_bits_pos s)) as B.
  assert (0 <= v mod 2 ^ bits s < 128 ^ Z.of_nat 32) as R by (pose proof (pow_bits_128_32 s); lia).
  destruct (groups_spec 32 _ R ltac:(lia)) as (init & last & G & F & Bl & V & N).
  exists init, last. rewrite G in V. repeat split; try assumption; try lia.
  - now rewrite G.
  - intros ds Hd E. rewrite <- G. apply groups_minimal; try assumption; lia.
Qed.

(** ** pad *)
Lemma pad_lemma pad base : 0 < pad -> 0 <= base ->
  exists n, pad_fn pad base = Ok n /\ 0 <= n < pad /\ (base + n) mod pad = 0
    /\ (forall m, 0 <= m -> (base + m) mod pad = 0 -> n <= m).
Proof.
  intros Hp Hb. unfold pad_fn. destruct (Z.eqb_spec pad 0); [lia|].
  rewrite Z.rem_mod_nonneg by lia.
  pose proof (Z.mod_pos_bound base pad Hp) as B.
  pose proof (Z.div_mod base pad ltac:(lia)) as D.
  destruct (Z.eqb_spec (base mod pad) 0) as [E|E].
  - exists 0. repeat split; try lia. rewrite Z.add_0_r. exact E.
  - exists (pad - base mod pad). repeat split; try lia.
    + replace (base + (pad - base mod pad)) with ((base / pad + 1) * pad) by lia.
      apply Z.mod_mul. lia.
    + intros m Hm M. apply Z.mod_divide in M; [|lia]. destruct M as [q Q].
      assert (q >= base / pad + 1) by nia. nia.
Qed.

(** ** bits *)
Lemma popcount_bound n v : 0 <= popcount n v <= Z.of_nat n.
Proof.
  revert v. induction n as [|n IH]; intros v; [cbn; lia|].
  cbn [popcount]. specialize (IH (Z.div2 v)). destruct (Z.odd v); cbn [Z.b2z]; lia.
Qed.
(** number of indices below n whose bit is set *)
Definition ones_below (n : nat) (v : Z) : nat :=
  length (filter (fun i => Z.testbit v (Z.of_nat i)) (seq 0 n)).
Lemma filter_map_len {A B} (f : A -> B) p l : length (filter p (map f l)) = length (filter (fun x => p (f x)) l).
Proof. induction l as [|a l IH]; cbn; [reflexivity|]. destruct (p (f a)); cbn; now rewrite IH. Qed.
Lemma filter_ext_len {A} (p q : A -> bool) l : (forall x, p x = q x) -> length (filter p l) = length (filter q l).
Proof. intros H. induction l as [|a l IH]; cbn; [reflexivity|]. rewrite H. destruct (q a); cbn; now rewrite IH. Qed.
Lemma popcount_ones n v : popcount n v = Z.of_nat (ones_below n v).
Proof.
  revert v. unfold ones_below. induction n as [|n IH]; intros v; [reflexivity|].
  cbn [popcount seq filter]. rewrite IH. rewrite <- seq_shift.
  rewrite Z.bit0_odd.
  assert (length (filter (fun i => Z.testbit (Z.div2 v) (Z.of_nat i)) (seq 0 n))
        = length (filter (fun i => Z.testbit v (Z.of_nat i)) (map S (seq 0 n)))) as ->.
  { rewrite filter_map_len. apply filter_ext_len. intros i.
    rewrite Nat2Z.inj_succ. rewrite Z.div2_spec, Z.shiftr_spec by lia. f_equal. }
  destruct (Z.odd v); cbn [Z.b2z length]; lia.
Qed.
Lemma bits_lemma v : bits_fn v = Z.of_nat (ones_below 64 v).
Proof.
  unfold bits_fn. rewrite wrap_id; [apply popcount_ones|].
  apply in_range_iff. pose proof (popcount_bound 64 v). change (min_of U8) with 0. change (max_of U8) with 255. lia.
Qed.

(** ** sum *)
Definition zsum (l : list Z) : Z := fold_right Z.add 0 l.
Lemma zsum_nonneg l : Forall (fun x => 0 <= x) l -> 0 <= zsum l.
Proof. unfold zsum. induction 1; cbn; lia. Qed.
Lemma sum_fold_panic chk l r : (forall a, r <> Ok a) -> 
  fold_left (sum_step chk) l r = r.
Proof.
  intros H. induction l as [|x l IH]; [reflexivity|]. cbn [fold_left].
  destruct r; unfold sum_step at 2; cbn [bind]; try apply IH; try assumption. exfalso; eapply H; reflexivity.
Qed.
Lemma sum_lemma_acc l a : Forall (fun x => 0 <= x < 2 ^ 64) l -> 0 <= a < 2 ^ 64 ->
  fold_left (sum_step true) l (Ok a)
  = if a + zsum l <? 2 ^ 64 then Ok (a + zsum l) else Panic.
Proof.
  revert a. induction l as [|x l IH]; intros a Hl Ha.
  - cbn [fold_left zsum fold_right]. replace (a + 0) with a by lia.
    destruct (Z.ltb_spec a (2 ^ 64)); [reflexivity|lia].
  - inversion Hl as [|? ? Hx Hl']; subst. cbn [fold_left zsum fold_right]. unfold sum_step at 2. cbn [bind].
    assert (wrap U64 x = x) as ->.
    { apply wrap_id, in_range_iff. change (min_of U64) with 0. change (max_of U64) with (2 ^ 64 - 1). lia. }
    fold (zsum l).
    assert (0 <= zsum l) by (apply zsum_nonneg; eapply Forall_impl; [|exact Hl']; cbn; intros; lia).
    destruct (in_range U64 (a + x)) eqn:E.
    + apply in_range_iff in E. change (max_of U64) with (2 ^ 64 - 1) in E.
      rewrite IH; [|assumption|lia]. replace (a + x + zsum l) with (a + (x + zsum l)) by lia. reflexivity.
    + rewrite sum_fold_panic by congruence.
      assert (~ (a + x < 2 ^ 64)).
      { intros L. assert (in_range U64 (a + x) = true); [|congruence].
        apply in_range_iff. change (min_of U64) with 0. change (max_of U64) with (2 ^ 64 - 1). lia. }
      destruct (Z.ltb_spec (a + (x + zsum l)) (2 ^ 64)); [lia|reflexivity].
Qed.
Lemma sum_lemma l : Forall (fun x => 0 <= x < 2 ^ 64) l ->
  sum_fn true l = if zsum l <? 2 ^ 64 then Ok (zsum l) else Panic.
Proof. intros H. unfold sum_fn. rewrite sum_lemma_acc by (try assumption; lia). reflexivity. Qed.
Lemma zsum_perm l m : Permutation l m -> zsum l = zsum m.
Proof. unfold zsum. induction 1; cbn; lia. Qed.
Lemma sum_perm_lemma l m : Permutation l m -> Forall (fun x => 0 <= x < 2 ^ 64) l -> sum_fn true l = sum_fn true m.
Proof.
  intros P H. rewrite !sum_lemma; [|eapply Permutation_Forall; eassumption|assumption].
  rewrite (zsum_perm l m P). reflexivity.
Qed.
