(** Facts about the string types. *)
From Verif Require Import Scalar ScalarFacts Prelude.
From Coq Require Import ZifyBool.
Ltac Zify.zify_post_hook ::= Z.div_mod_to_equations.

Lemma is_usv_iff c : is_usv c = true <-> usv c.
Proof. unfold is_usv, usv. lia. Qed.

(** decoding one encoded character *)
Lemma from_utf8_char c l : usv c ->
  from_utf8 (utf8_char c ++ l) = match from_utf8 l with Some r => Some (c :: r) | None => None end.
Proof.
  intros U. unfold usv in U. unfold utf8_char.
  destruct (Z.ltb_spec c 128).
  { cbn [app from_utf8]. replace ((0 <=? c) && (c <? 128)) with true by lia. reflexivity. }
  destruct (Z.ltb_spec c 2048).
  { cbn [app from_utf8]. set (b0 := 192 + c / 64). set (b1 := 128 + c mod 64).
    assert (194 <= b0 < 224 /\ 128 <= b1 < 192 /\ (b0 - 192) * 64 + (b1 - 128) = c) as (A & B & C) by (subst b0 b1; lia).
    replace ((0 <=? b0) && (b0 <? 128)) with false by lia.
    replace ((194 <=? b0) && (b0 <? 224)) with true by lia.
    replace (cont b1) with true by (unfold cont; lia). rewrite C. reflexivity. }
  destruct (Z.ltb_spec c 65536).
  { cbn [app from_utf8]. set (b0 := 224 + c / 4096). set (b1 := 128 + c / 64 mod 64). set (b2 := 128 + c mod 64).
    assert (224 <= b0 < 240 /\ 128 <= b1 < 192 /\ 128 <= b2 < 192 /\
      (b0 - 224) * 4096 + (b1 - 128) * 64 + (b2 - 128) = c) as (A & B & B2 & C).
    { subst b0 b1 b2. lia. }
    replace ((0 <=? b0) && (b0 <? 128)) with false by lia.
    replace ((194 <=? b0) && (b0 <? 224)) with false by lia.
    replace ((224 <=? b0) && (b0 <? 240)) with true by lia.
    replace (cont b1 && cont b2) with true by (unfold cont; lia). rewrite C.
    replace ((2048 <=? c) && is_usv c) with true by (unfold is_usv; lia). reflexivity. }
  { cbn [app from_utf8]. set (b0 := 240 + c / 262144). set (b1 := 128 + c / 4096 mod 64).
    set (b2 := 128 + c / 64 mod 64). set (b3 := 128 + c mod 64).
    assert (240 <= b0 < 245 /\ 128 <= b1 < 192 /\ 128 <= b2 < 192 /\ 128 <= b3 < 192 /\
      (b0 - 240) * 262144 + (b1 - 128) * 4096 + (b2 - 128) * 64 + (b3 - 128) = c) as (A & B & B2 & B3 & C).
    { subst b0 b1 b2 b3. lia. }
    replace ((0 <=? b0) && (b0 <? 128)) with false by lia.
    replace ((194 <=? b0) && (b0 <? 224)) with false by lia.
    replace ((224 <=? b0) && (b0 <? 240)) with false by lia.
    replace ((240 <=? b0) && (b0 <? 245)) with true by lia.
    replace (cont b1 && cont b2 && cont b3) with true by (unfold cont; lia). rewrite C.
    replace ((65536 <=? c) && is_usv c) with true by (unfold is_usv; lia). reflexivity. }
Qed.

Lemma from_utf8_encode s : Forall usv s -> from_utf8 (utf8_encode s) = Some s.
Proof.
  induction 1 as [|c s Hc Hs IH]; [reflexivity|].
  unfold utf8_encode in *. cbn [flat_map]. rewrite from_utf8_char by exact Hc. rewrite IH. reflexivity.
Qed.

Lemma utf8_char_bytes c : usv c -> Forall (fun b => 0 <= b < 256) (utf8_char c).
Proof.
  intros U. unfold usv in U. unfold utf8_char.
  destruct (Z.ltb_spec c 128); [repeat constructor; lia|].
  destruct (Z.ltb_spec c 2048); [repeat constructor; lia|].
  destruct (Z.ltb_spec c 65536); repeat constructor; lia.
Qed.

Lemma utf8_char_no0 c : usv c -> c <> 0 -> Forall (fun b => b <> 0) (utf8_char c).
Proof.
  intros U N. unfold usv in U. unfold utf8_char.
  destruct (Z.ltb_spec c 128); [repeat constructor; lia|].
  destruct (Z.ltb_spec c 2048); [repeat constructor; lia|].
  destruct (Z.ltb_spec c 65536); repeat constructor; lia.
Qed.

Lemma utf8_no0 s : Forall usv s -> ~ In 0 s -> Forall (fun b => b <> 0) (utf8_encode s).
Proof.
  induction 1 as [|c s Hc Hs IH]; intros N; [constructor|].
  unfold utf8_encode. cbn [flat_map]. apply Forall_app. split.
  - apply utf8_char_no0; [exact Hc|]. intros ->. apply N. now left.
  - apply IH. intros K. apply N. now right.
Qed.

Lemma read_until0_app a l : Forall (fun b => b <> 0) a -> read_until0 (a ++ 0 :: l) = (a ++ [0], l).
Proof.
  induction 1 as [|b a Hb Ha IH]; [reflexivity|].
  cbn [app read_until0]. apply Z.eqb_neq in Hb. rewrite Hb, IH. reflexivity.
Qed.

Lemma utf8_roundtrip_nul s rest : Forall usv s -> ~ In 0 s ->
  utf8_read None (utf8_write None s ++ rest) = Ok (s, rest).
Proof.
  intros H N. unfold utf8_read, utf8_write. rewrite <- app_assoc. cbn [app].
  rewrite read_until0_app by (apply utf8_no0; assumption).
  rewrite rev_app_distr. cbn [rev app Z.eqb]. rewrite rev_involutive.
  rewrite from_utf8_encode by exact H. reflexivity.
Qed.

(** strings split at the first NUL *)
Lemma split_at_0 s : In 0 s -> exists a b, s = a ++ 0 :: b /\ ~ In 0 a.
Proof.
  induction s as [|c s IH]; [intros []|]. intros Hin.
  destruct (Z.eq_dec c 0) as [->|Hc]; [exists [], s; split; [reflexivity|intros []]|].
  destruct Hin as [->|Hin]; [congruence|]. destruct (IH Hin) as (a & b & -> & Na).
  exists (c :: a), b. split; [reflexivity|]. intros [E|E]; [congruence|contradiction].
Qed.

Lemma utf8_encode_app a b : utf8_encode (a ++ b) = utf8_encode a ++ utf8_encode b.
Proof. apply flat_map_app. Qed.

(** with an embedded NUL the text is cut there and the remainder is left unread *)
Lemma utf8_embedded_nul a b rest : Forall usv (a ++ 0 :: b) -> ~ In 0 a ->
  utf8_read None (utf8_write None (a ++ 0 :: b) ++ rest) = Ok (a, utf8_encode b ++ [0] ++ rest).
Proof.
  intros H N. unfold utf8_read, utf8_write.
  apply Forall_app in H as [Ha Hb].
  rewrite utf8_encode_app. cbn [utf8_encode flat_map]. change (utf8_char 0) with [0].
  change (flat_map utf8_char b) with (utf8_encode b).
  rewrite <- !app_assoc. cbn [app]. 
  rewrite read_until0_app by (apply utf8_no0; assumption).
  rewrite rev_app_distr. cbn [rev app Z.eqb]. rewrite rev_involutive.
  rewrite from_utf8_encode by exact Ha. reflexivity.
Qed.

Lemma utf8_roundtrip_nul_iff s rest : Forall usv s ->
  (utf8_read None (utf8_write None s ++ rest) = Ok (s, rest) <-> ~ In 0 s).
Proof.
  intros H. split; [|apply utf8_roundtrip_nul; exact H].
  intros E Hin. destruct (split_at_0 s Hin) as (a & b & -> & Na).
  rewrite utf8_embedded_nul in E by assumption. apply Ok_inj in E.
  injection E as E _. apply (f_equal (@length Z)) in E. rewrite app_length in E. cbn in E. lia.
Qed.

Lemma utf8_roundtrip_len s n rest : Forall usv s ->
  n = Z.of_nat (length (utf8_encode s)) -> n < 2 ^ 63 ->
  utf8_read (Some n) (utf8_write (Some n) s ++ rest) = Ok (s, rest).
Proof.
  intros H -> Hn. unfold utf8_read, utf8_write. apply Z.leb_gt in Hn. rewrite Hn. rewrite Nat2Z.id.
  rewrite read_exact_app by reflexivity. cbn [bind]. rewrite from_utf8_encode by exact H. reflexivity.
Qed.

(** ** soundness of from_utf8: what it accepts is canonical *)
Lemma from_utf8_sound : forall n l s, (length l <= n)%nat -> from_utf8 l = Some s ->
  Forall usv s /\ utf8_encode s = l.
Proof.
  induction n as [|n IH]; intros l s Hn E.
  { destruct l; [|cbn in Hn; lia]. injection E as <-. split; [constructor|reflexivity]. }
  destruct l as [|b0 l0]; [injection E as <-; split; [constructor|reflexivity]|].
  cbn [from_utf8] in E. cbn in Hn.
  assert (forall c l' r, from_utf8 l' = Some r -> usv c -> (length l' <= n)%nat ->
     b0 :: l0 = utf8_char c ++ l' -> Forall usv (c :: r) /\ utf8_encode (c :: r) = b0 :: l0) as K.
  { intros c l' r Er Uc Hl El. destruct (IH l' r Hl Er) as [Fr Er']. split; [constructor; assumption|].
    unfold utf8_encode in *. cbn [flat_map]. rewrite Er'. symmetry. exact El. }
  destruct ((0 <=? b0) && (b0 <? 128)) eqn:E0.
  { destruct (from_utf8 l0) as [r|] eqn:Er; [|discriminate]. injection E as <-.
    apply (K b0 l0 r Er); [unfold usv; lia|lia|].
    unfold utf8_char. replace (b0 <? 128) with true by lia. reflexivity. }
  destruct l0 as [|b1 l1]; [discriminate|].
  destruct ((194 <=? b0) && (b0 <? 224)) eqn:E1.
  { destruct (cont b1) eqn:C1; [|discriminate]. unfold cont in C1.
    destruct (from_utf8 l1) as [r|] eqn:Er; [|discriminate]. injection E as <-.
    set (c := (b0 - 192) * 64 + (b1 - 128)).
    assert (128 <= c < 2048) by (subst c; lia).
    apply (K c l1 r Er); [unfold usv; lia|cbn in Hn; lia|].
    unfold utf8_char. replace (c <? 128) with false by lia. replace (c <? 2048) with true by lia.
    cbn [app]. f_equal; [subst c; lia|]. f_equal. subst c; lia. }
  destruct l1 as [|b2 l2]; [discriminate|].
  destruct ((224 <=? b0) && (b0 <? 240)) eqn:E2.
  { destruct (cont b1 && cont b2) eqn:C1; [|discriminate]. unfold cont in C1.
    set (c := (b0 - 224) * 4096 + (b1 - 128) * 64 + (b2 - 128)) in *.
    destruct ((2048 <=? c) && is_usv c) eqn:Cc; [|discriminate].
    destruct (from_utf8 l2) as [r|] eqn:Er; [|discriminate]. injection E as <-.
    assert (c < 65536) by (subst c; lia).
    apply (K c l2 r Er); [apply is_usv_iff; apply andb_prop in Cc; apply Cc|cbn in Hn; lia|].
    unfold utf8_char. replace (c <? 128) with false by lia. replace (c <? 2048) with false by lia.
    replace (c <? 65536) with true by lia.
    cbn [app]. f_equal; [subst c; lia|]. f_equal; [subst c; lia|]. f_equal. subst c; lia. }
  destruct l2 as [|b3 l3]; [discriminate|].
  destruct ((240 <=? b0) && (b0 <? 245)) eqn:E3; [|discriminate].
  destruct (cont b1 && cont b2 && cont b3) eqn:C1; [|discriminate]. unfold cont in C1.
  set (c := (b0 - 240) * 262144 + (b1 - 128) * 4096 + (b2 - 128) * 64 + (b3 - 128)) in *.
  destruct ((65536 <=? c) && is_usv c) eqn:Cc; [|discriminate].
  destruct (from_utf8 l3) as [r|] eqn:Er; [|discriminate]. injection E as <-.
  apply (K c l3 r Er); [apply is_usv_iff; apply andb_prop in Cc; apply Cc|cbn in Hn; lia|].
  unfold utf8_char. replace (c <? 128) with false by lia. replace (c <? 2048) with false by lia.
  replace (c <? 65536) with false by lia.
  cbn [app]. f_equal; [subst c; lia|]. f_equal; [subst c; lia|]. f_equal; [subst c; lia|]. f_equal. subst c; lia.
Qed.

Lemma utf8_len_decode_canonical n l s rest : utf8_read (Some n) l = Ok (s, rest) ->
  Forall usv s /\ l = utf8_write (Some n) s ++ rest /\ length (utf8_encode s) = Z.to_nat n.
Proof.
  unfold utf8_read. destruct (2 ^ 63 <=? n); [discriminate|]. destruct (read_exact (Z.to_nat n) l) as [[t r]| | |] eqn:E; cbn [bind]; try discriminate.
  destruct (from_utf8 t) as [s'|] eqn:F; cbn [of_opt bind]; [|discriminate].
  intros K. apply Ok_inj in K. injection K as <- <-.
  apply read_exact_ok in E as [-> L].
  destruct (from_utf8_sound (length t) t s' (Nat.le_refl _) F) as [U <-].
  repeat split; assumption.
Qed.

(** ** UTF-16 *)
Lemma from_utf16_char c l : usv c ->
  from_utf16 (utf16_char c ++ l) = match from_utf16 l with Some r => Some (c :: r) | None => None end.
Proof.
  intros U. unfold usv in U. unfold utf16_char. destruct (Z.ltb_spec c 65536).
  - cbn [app from_utf16]. replace ((55296 <=? c) && (c <? 56320)) with false by lia.
    replace ((56320 <=? c) && (c <? 57344)) with false by lia. reflexivity.
  - cbn [app from_utf16]. set (u := 55296 + (c - 65536) / 1024). set (v := 56320 + (c - 65536) mod 1024).
    assert (55296 <= u < 56320 /\ 56320 <= v < 57344 /\ 65536 + (u - 55296) * 1024 + (v - 56320) = c) as (A & B & C)
      by (subst u v; lia).
    replace ((55296 <=? u) && (u <? 56320)) with true by lia.
    replace ((56320 <=? v) && (v <? 57344)) with true by lia. rewrite C. reflexivity.
Qed.
Lemma from_utf16_units s : Forall usv s -> from_utf16 (utf16_units s) = Some s.
Proof.
  induction 1 as [|c s Hc Hs IH]; [reflexivity|].
  unfold utf16_units in *. cbn [flat_map]. rewrite from_utf16_char by exact Hc. rewrite IH. reflexivity.
Qed.
Lemma utf16_units_range s : Forall usv s -> Forall (fun u => 0 <= u < 65536) (utf16_units s).
Proof.
  induction 1 as [|c s Hc Hs IH]; [constructor|]. unfold utf16_units in *. cbn [flat_map].
  apply Forall_app. split; [|exact IH]. unfold usv in Hc. unfold utf16_char.
  destruct (Z.ltb_spec c 65536); repeat constructor; lia.
Qed.

Definition be16 := {| es_scalar := U16; es_endian := Big |}.
Definition swap16 (u : Z) : Z := (u mod 256) * 256 + u / 256.

Lemma units_write_length us : length (flat_map (fun u => scalar_bytes be16 u) us) = (2 * length us)%nat.
Proof. induction us as [|u us IH]; [reflexivity|]. cbn [flat_map]. rewrite app_length, IH, scalar_bytes_length. cbn. lia. Qed.

Lemma swap16_bytes u : 0 <= u < 65536 ->
  scalar_of_bytes {| es_scalar := U16; es_endian := Little |} (scalar_bytes be16 u) = swap16 u.
Proof.
  intros H. unfold scalar_of_bytes, scalar_bytes, be16. cbn [es_endian es_scalar size le_bytes rev app le_value].
  unfold wrap. cbn [is_signed andb]. change (2 ^ bits U16) with 65536. unfold swap16.
  rewrite Z.mod_small; lia.
Qed.

Lemma units_of_write host us : Forall (fun u => 0 <= u < 65536) us ->
  units_of host (length us) (flat_map (fun u => scalar_bytes be16 u) us)
  = match host with Big => us | Little => map swap16 us end.
Proof.
  induction 1 as [|u us Hu Hus IH]; [destruct host; reflexivity|].
  cbn [length flat_map units_of].
  rewrite firstn_app_exact, skipn_app_exact by (rewrite scalar_bytes_length; reflexivity).
  rewrite IH. destruct host.
  - f_equal. apply (scalar_of_bytes_bytes be16). cbn [be16 es_scalar]. unfold in_range.
    change (min_of U16) with 0. change (max_of U16) with 65535. lia.
  - cbn [map]. f_equal. apply swap16_bytes. exact Hu.
Qed.

Lemma utf16_decode_encode host s rest : Forall usv s -> Z.of_nat (length (utf16_units s)) < 2 ^ 62 ->
  utf16_read host (Z.of_nat (length (utf16_units s))) (utf16_write s ++ rest)
  = match from_utf16 (match host with Big => utf16_units s | Little => map swap16 (utf16_units s) end) with
    | Some s' => Ok (s', rest) | None => Err EDecode end.
Proof.
  intros H Hn. unfold utf16_read, utf16_write. apply Z.leb_gt in Hn. rewrite Hn, Nat2Z.id.
  rewrite read_exact_app by (apply units_write_length). cbn [bind].
  rewrite units_of_write by (apply utf16_units_range; exact H).
  destruct (from_utf16 _); reflexivity.
Qed.

Lemma utf16_roundtrip_big s rest : Forall usv s -> Z.of_nat (length (utf16_units s)) < 2 ^ 62 ->
  utf16_read Big (Z.of_nat (length (utf16_units s))) (utf16_write s ++ rest) = Ok (s, rest).
Proof. intros H Hn. rewrite utf16_decode_encode by assumption. rewrite from_utf16_units by exact H. reflexivity. Qed.

(** units of a string determine it, so a little-endian host can only round-trip
    strings all of whose units are byte-palindromes *)
Lemma utf16_little_fails_iff s rest : Forall usv s -> Z.of_nat (length (utf16_units s)) < 2 ^ 62 ->
  (utf16_read Little (Z.of_nat (length (utf16_units s))) (utf16_write s ++ rest) = Ok (s, rest)
   <-> Forall (fun u => u mod 256 = u / 256) (utf16_units s)).
Proof.
  intros H Hl. rewrite utf16_decode_encode by assumption. clear Hl. pose proof (utf16_units_range s H) as R.
  assert (forall us, Forall (fun u => 0 <= u < 65536) us ->
     (map swap16 us = us <-> Forall (fun u => u mod 256 = u / 256) us)) as P.
  { induction 1 as [|u us Hu Hus IH]; [split; [constructor|reflexivity]|].
    cbn [map]. split.
    - intros E. injection E as E1 E2. constructor; [unfold swap16 in E1; lia|apply IH, E2].
    - intros F. inversion F as [|? ? F1 F2]; subst. f_equal; [unfold swap16; lia|apply IH, F2]. }
  assert (forall n us s', (length us <= n)%nat -> Forall (fun u => 0 <= u < 65536) us -> from_utf16 us = Some s' -> utf16_units s' = us) as Inj.
  { induction n as [|n IH]; intros us s' Hn Hr E.
    { destruct us; [|cbn in Hn; lia]. injection E as <-. reflexivity. }
    destruct us as [|u us0]; [injection E as <-; reflexivity|].
    inversion Hr as [|? ? Hu Hr']; subst.
    cbn [from_utf16] in E. cbn in Hn. destruct ((55296 <=? u) && (u <? 56320)) eqn:E1.
    - destruct us0 as [|v us1]; [discriminate|].
      inversion Hr' as [|? ? Hv Hr'']; subst.
      destruct ((56320 <=? v) && (v <? 57344)) eqn:E2; [|discriminate].
      destruct (from_utf16 us1) as [r|] eqn:Er; [|discriminate]. apply Some_inj in E. subst s'.
      unfold utf16_units in *. cbn [flat_map]. rewrite (IH us1 r); [|cbn in Hn; lia|assumption|assumption].
      set (c := 65536 + (u - 55296) * 1024 + (v - 56320)).
      unfold utf16_char. replace (c <? 65536) with false by (subst c; lia).
      assert (55296 + (c - 65536) / 1024 = u) as -> by (subst c; lia).
      assert (56320 + (c - 65536) mod 1024 = v) as -> by (subst c; lia). reflexivity.
    - destruct ((56320 <=? u) && (u <? 57344)) eqn:E2; [discriminate|].
      destruct (from_utf16 us0) as [r|] eqn:Er; [|discriminate]. apply Some_inj in E. subst s'.
      unfold utf16_units in *. cbn [flat_map]. rewrite (IH us0 r); [|lia|assumption|assumption].
      unfold utf16_char. replace (u <? 65536) with true by lia. reflexivity. }
  rewrite <- P by exact R. split.
  - destruct (from_utf16 (map swap16 (utf16_units s))) as [s'|] eqn:E; [|discriminate].
    intros K. apply Ok_inj in K. injection K as ->.
    symmetry. apply (Inj _ _ _ (Nat.le_refl _)) in E; [exact E|].
    apply Forall_map. eapply Forall_impl; [|exact R]. cbn. intros u Hu. unfold swap16. lia.
  - intros ->. rewrite from_utf16_units by exact H. reflexivity.
Qed.
