(** base64 (C53): proofs. *)
From Verif Require Import Base Scalar Expr Asg ConstIntFacts PreludeFacts Decode DecRef EncRef RtWf RoundTrip World Base64.
From Coq Require Import Lia.
Open Scope string_scope. Open Scope Z_scope. Open Scope list_scope.

Lemma list_ind3 {A} (P : list A -> Prop) : P [] -> (forall a, P [a]) -> (forall a b, P [a; b]) -> (forall a b c r, P r -> P (a :: b :: c :: r)) -> forall l, P l.
Proof.
  intros H0 H1 H2 H3 l. assert (K : forall n l, (List.length l <= n)%nat -> P l); [|exact (K _ l (le_n _))].
  clear l. induction n as [|n IH]; intros l L. - destruct l; [exact H0|cbn in L; lia].
  - destruct l as [|a [|b [|c r]]]; [exact H0|apply H1|apply H2|]. apply H3, IH. cbn in L. lia.
Qed.
Lemma value_char v : 0 <= v < 64 -> b64_value (b64_char v) = Some v.
Proof.
  intros H. unfold b64_value, b64_char. destruct (Z.ltb_spec v 26).
  - replace ((65 <=? 65 + v) && (65 + v <=? 90)) with true by lia. f_equal. lia.
  - destruct (Z.ltb_spec v 52).
    + replace ((65 <=? 71 + v) && (71 + v <=? 90)) with false by lia. replace ((97 <=? 71 + v) && (71 + v <=? 122)) with true by lia. f_equal. lia.
    + destruct (Z.ltb_spec v 62).
      * replace ((65 <=? v - 4) && (v - 4 <=? 90)) with false by lia. replace ((97 <=? v - 4) && (v - 4 <=? 122)) with false by lia. replace ((48 <=? v - 4) && (v - 4 <=? 57)) with true by lia. f_equal. lia.
      * destruct (Z.eqb_spec v 62); [subst; reflexivity|]. assert (v = 63) by lia. subst. reflexivity.
Qed.
Ltac dm := Z.div_mod_to_equations; lia.
Lemma decode_encode strict l : octets l -> b64_decode strict (b64_encode l) = Some l.
Proof.
  induction l as [|a|a b|a b c r IH] using list_ind3; intros O; [reflexivity| | |].
  - inversion O as [|? ? Ha _]; subst. cbn [b64_encode b64_decode]. rewrite !value_char by dm. cbn [b64_value]. change (b64_value pad_char) with (@None Z). cbn [andb].
    change (pad_char =? pad_char) with true. replace (a mod 4 * 16 mod 16 =? 0) with true by (symmetry; apply Z.eqb_eq; dm). cbn [andb]. f_equal. f_equal. dm.
  - inversion O as [|? ? Ha O1]; subst. inversion O1 as [|? ? Hb _]; subst. cbn [b64_encode b64_decode]. rewrite !value_char by dm. change (b64_value pad_char) with (@None Z).
    change (pad_char =? pad_char) with true. replace (b mod 16 * 4 mod 4 =? 0) with true by (symmetry; apply Z.eqb_eq; dm). cbn [andb]. f_equal. f_equal; [dm|]. f_equal. dm.
  - inversion O as [|? ? Ha O1]; subst. inversion O1 as [|? ? Hb O2]; subst. inversion O2 as [|? ? Hc O3]; subst. cbn [b64_encode b64_decode]. rewrite !value_char by dm.
    rewrite (IH O3). f_equal. f_equal; [dm|]. f_equal; [dm|]. f_equal. dm.
Qed.

(** The strict decoder accepts exactly the encodings. *)
Lemma char_value c v : b64_value c = Some v -> 0 <= v < 64 /\ b64_char v = c.
Proof.
  unfold b64_value. intros H.
  destruct ((65 <=? c) && (c <=? 90)) eqn:E1; [injection H as <-; unfold b64_char; replace (c - 65 <? 26) with true by lia; lia|].
  destruct ((97 <=? c) && (c <=? 122)) eqn:E2; [injection H as <-; unfold b64_char; replace (c - 71 <? 26) with false by lia; replace (c - 71 <? 52) with true by lia; lia|].
  destruct ((48 <=? c) && (c <=? 57)) eqn:E3; [injection H as <-; unfold b64_char; replace (c + 4 <? 26) with false by lia; replace (c + 4 <? 52) with false by lia; replace (c + 4 <? 62) with true by lia; lia|].
  destruct (Z.eqb_spec c 43) as [->|]; [injection H as <-; split; [lia|reflexivity]|]. destruct (Z.eqb_spec c 47) as [->|]; [injection H as <-; split; [lia|reflexivity]|discriminate].
Qed.
Lemma list_ind4 {A} (P : list A -> Prop) : P [] -> (forall a, P [a]) -> (forall a b, P [a; b]) -> (forall a b c, P [a; b; c]) -> (forall a b c d r, P r -> P (a :: b :: c :: d :: r)) -> forall l, P l.
Proof.
  intros H0 H1 H2 H3 H4 l. assert (K : forall n l, (List.length l <= n)%nat -> P l); [|exact (K _ l (le_n _))].
  clear l. induction n as [|n IH]; intros l L. - destruct l; [exact H0|cbn in L; lia].
  - destruct l as [|a [|b [|c [|d r]]]]; [exact H0|apply H1|apply H2|apply H3|]. apply H4, IH. cbn in L. lia.
Qed.
Lemma encode_decode s : forall l, b64_decode true s = Some l -> octets l /\ b64_encode l = s.
Proof.
  induction s as [|w|w x|w x y|w x y z r IH] using list_ind4; intros l H; cbn [b64_decode] in H.
  - injection H as <-. split; [constructor|reflexivity].
  - discriminate.
  - destruct (b64_value w); [|discriminate]. destruct (b64_value x); discriminate.
  - destruct (b64_value w); [|discriminate]. destruct (b64_value x); [|discriminate]. destruct (b64_value y); discriminate.
  - destruct (b64_value w) as [vw|] eqn:Ew; [|discriminate]. destruct (b64_value x) as [vx|] eqn:Ex; [|discriminate]. apply char_value in Ew as [Rw <-]. apply char_value in Ex as [Rx <-].
    destruct (b64_value y) as [vy|] eqn:Ey.
    + apply char_value in Ey as [Ry <-]. destruct (b64_value z) as [vz|] eqn:Ez.
      * apply char_value in Ez as [Rz <-]. destruct (b64_decode true r) as [d|]; [|discriminate]. injection H as <-. destruct (IH d eq_refl) as [O <-].
        split; [repeat (constructor; [dm|]); exact O|]. cbn [b64_encode]. repeat f_equal; dm.
      * destruct ((z =? pad_char) && (vy mod 4 =? 0) && match r with [] => true | _ => false end) eqn:C; [|discriminate]. injection H as <-.
        apply andb_true_iff in C as [C C3]. apply andb_true_iff in C as [C1 C2]. apply Z.eqb_eq in C1, C2. destruct r; [|discriminate]. subst z.
        split; [repeat (constructor; [dm|]); constructor|]. cbn [b64_encode]. repeat f_equal; dm.
    + destruct ((y =? pad_char) && (z =? pad_char) && (vx mod 16 =? 0) && match r with [] => true | _ => false end) eqn:C; [|discriminate]. injection H as <-.
      apply andb_true_iff in C as [C C4]. apply andb_true_iff in C as [C C3]. apply andb_true_iff in C as [C1 C2]. apply Z.eqb_eq in C1, C2, C3. destruct r; [|discriminate]. subst y z.
      split; [repeat (constructor; [dm|]); constructor|]. cbn [b64_encode]. repeat f_equal; dm.
Qed.

(** ** The writer *)
Lemma groups_encode : forall l m, (let (out, kept) := b64_groups l in out ++ b64_encode (kept ++ m)) = b64_encode (l ++ m).
Proof.
  induction l as [|a|a b|a b c r IH] using list_ind3; intros m; try reflexivity. specialize (IH m). cbn [b64_groups]. destruct (b64_groups r) as [out kept]. cbn [app b64_encode]. rewrite <- IH. reflexivity.
Qed.
Lemma writes_encode : forall chunks kept, b64_writes kept chunks = b64_encode (kept ++ concat chunks).
Proof.
  induction chunks as [|c cs IH]; intros kept; cbn [b64_writes concat]; [rewrite app_nil_r; reflexivity|]. unfold b64_write. pose proof (groups_encode (kept ++ c) (concat cs)) as G.
  destruct (b64_groups (kept ++ c)) as [out k]. rewrite IH, G, app_assoc. reflexivity.
Qed.

(** ** The bits *)
Lemma bits_app m n x y : 0 <= x -> 0 <= y < 2 ^ Z.of_nat n -> bits_of (m + n) (x * 2 ^ Z.of_nat n + y) = bits_of m x ++ bits_of n y.
Proof.
  intros X Y. induction m as [|m IH].
  - cbn [Nat.add bits_of app]. revert y Y. enough (K : forall k y, (k <= n)%nat -> bits_of k (x * 2 ^ Z.of_nat n + y) = bits_of k y) by (intros; apply K; lia).
    induction k as [|k IHk]; intros y L; [reflexivity|]. cbn [bits_of]. rewrite IHk by lia. f_equal.
    replace (Z.of_nat n) with (Z.of_nat (n - S k) + 1 + Z.of_nat k) by lia. rewrite !Z.pow_add_r by lia.
    replace (x * (2 ^ Z.of_nat (n - S k) * 2 ^ 1 * 2 ^ Z.of_nat k) + y) with (y + (x * 2 ^ Z.of_nat (n - S k) * 2) * 2 ^ Z.of_nat k) by lia.
    rewrite Z.div_add by (apply Z.pow_nonzero; lia). rewrite Z.odd_add. rewrite (Z.odd_mul _ 2). rewrite andb_false_r, xorb_false_r. reflexivity.
  - cbn [Nat.add bits_of app]. f_equal; [|exact IH]. f_equal. rewrite Nat2Z.inj_add, (Z.add_comm (Z.of_nat m)), Z.pow_add_r by lia. rewrite <- Z.div_div by (try (apply Z.pow_nonzero; lia); apply Z.pow_pos_nonneg; lia).
    f_equal. rewrite Z.div_add_l by (apply Z.pow_nonzero; lia). rewrite Z.div_small by lia. lia.
Qed.
Lemma bits_split m n v : 0 <= v -> bits_of (m + n) v = bits_of m (v / 2 ^ Z.of_nat n) ++ bits_of n (v mod 2 ^ Z.of_nat n).
Proof.
  intros H. assert (P : 0 < 2 ^ Z.of_nat n) by (apply Z.pow_pos_nonneg; lia). rewrite <- bits_app; [|apply Z.div_pos; lia|apply Z.mod_pos_bound; lia]. f_equal. rewrite Z.mul_comm. apply Z.div_mod. lia.
Qed.
Lemma bits_zero n : bits_of n 0 = repeat false n.
Proof. induction n as [|n IH]; [reflexivity|]. cbn [bits_of repeat]. rewrite Z.div_0_l by (apply Z.pow_nonzero; lia). rewrite IH. reflexivity. Qed.
Lemma bits_len n v : List.length (bits_of n v) = n.
Proof. induction n; cbn; congruence. Qed.
Lemma app_len_inj {A} (a b c d : list A) : List.length a = List.length c -> a ++ b = c ++ d -> a = c /\ b = d.
Proof. revert c. induction a as [|x a IH]; intros [|y c] L E; try discriminate; [split; [reflexivity|exact E]|]. cbn in L, E. injection E as -> E. injection L as L. destruct (IH c L E) as [-> ->]. split; reflexivity. Qed.
Lemma bits_inj n : forall v v', 0 <= v < 2 ^ Z.of_nat n -> 0 <= v' < 2 ^ Z.of_nat n -> bits_of n v = bits_of n v' -> v = v'.
Proof.
  induction n as [|n IH]; intros v v' H H' E; [cbn in H, H'; lia|].
  assert (P : 0 < 2 ^ Z.of_nat n) by (apply Z.pow_pos_nonneg; lia). rewrite Nat2Z.inj_succ, Z.pow_succ_r in H, H' by lia.
  change (S n) with (1 + n)%nat in E. rewrite !(bits_split 1 n) in E by lia. apply app_len_inj in E as [E1 E2]; [|rewrite !bits_len; reflexivity].
  apply IH in E2; try (apply Z.mod_pos_bound; lia). cbn [bits_of] in E1. change (2 ^ Z.of_nat 0) with 1 in E1. rewrite !Z.div_1_r in E1. injection E1 as E1.
  assert (Q : forall w, 0 <= w < 2 * 2 ^ Z.of_nat n -> w / 2 ^ Z.of_nat n = 0 \/ w / 2 ^ Z.of_nat n = 1).
  { intros w W. assert (0 <= w / 2 ^ Z.of_nat n < 2); [|lia]. split; [apply Z.div_pos; lia|apply Z.div_lt_upper_bound; lia]. }
  rewrite (Z.div_mod v (2 ^ Z.of_nat n)), (Z.div_mod v' (2 ^ Z.of_nat n)) by lia. destruct (Q v H) as [A|A], (Q v' H') as [B|B]; rewrite A, B in E1; try discriminate; rewrite A, B; lia.
Qed.
Lemma letter_char v : (v < 64)%nat -> letter v = Some (b64_char (Z.of_nat v)).
Proof. intros H. do 64 (destruct v as [|v]; [reflexivity|]). lia. Qed.

(** The letters before the padding. *)
Fixpoint sextets (l : list Z) : list Z :=
  match l with
  | a :: b :: c :: r => a / 4 :: a mod 4 * 16 + b / 16 :: b mod 16 * 4 + c / 64 :: c mod 64 :: sextets r
  | [a; b] => [a / 4; a mod 4 * 16 + b / 16; b mod 16 * 4]
  | [a] => [a / 4; a mod 4 * 16]
  | [] => []
  end.
Definition padding (l : list Z) : nat := match (List.length l mod 3)%nat with 0 => 0 | 1 => 2 | _ => 1 end%nat.
Definition zeros (l : list Z) : nat := match (List.length l mod 3)%nat with 0 => 0 | 1 => 4 | _ => 2 end%nat.
Lemma mod3 n : (S (S (S n)) mod 3 = n mod 3)%nat.
Proof. replace (S (S (S n))) with (n + 1 * 3)%nat by lia. apply Nat.mod_add. lia. Qed.
Lemma sextets_range l : octets l -> Forall (fun v => 0 <= v < 64) (sextets l).
Proof.
  induction l as [|a|a b|a b c r IH] using list_ind3; intros O; cbn [sextets]; [constructor| | |].
  - inversion O; subst. repeat (constructor; [dm|]). constructor.
  - inversion O as [|? ? ? O1]; subst. inversion O1; subst. repeat (constructor; [dm|]). constructor.
  - inversion O as [|? ? ? O1]; subst. inversion O1 as [|? ? ? O2]; subst. inversion O2; subst. repeat (constructor; [dm|]). auto.
Qed.
Lemma encode_sextets l : b64_encode l = map b64_char (sextets l) ++ repeat pad_char (padding l).
Proof.
  induction l as [|a|a b|a b c r IH] using list_ind3; try reflexivity. cbn [b64_encode sextets map app]. rewrite IH. unfold padding. cbn [List.length]. rewrite mod3. reflexivity.
Qed.
Lemma sextets_len l : ((List.length (sextets l) + padding l) mod 4 = 0)%nat.
Proof.
  induction l as [|a|a b|a b c r IH] using list_ind3; try reflexivity. cbn [sextets List.length]. unfold padding in *. cbn [List.length]. rewrite mod3.
  set (p := match (List.length r mod 3)%nat with 0%nat => 0%nat | 1%nat => 2%nat | _ => 1%nat end) in *. replace (S (S (S (S (List.length (sextets r))))) + p)%nat with (List.length (sextets r) + p + 1 * 4)%nat by lia. rewrite Nat.mod_add by lia. exact IH.
Qed.
Lemma bits8_62 a : 0 <= a < 256 -> bits_of 8 a = bits_of 6 (a / 4) ++ bits_of 2 (a mod 4).
Proof. intros H. exact (bits_split 6 2 a (proj1 H)). Qed.
Lemma bits8_44 a : 0 <= a < 256 -> bits_of 8 a = bits_of 4 (a / 16) ++ bits_of 4 (a mod 16).
Proof. intros H. exact (bits_split 4 4 a (proj1 H)). Qed.
Lemma bits8_26 a : 0 <= a < 256 -> bits_of 8 a = bits_of 2 (a / 64) ++ bits_of 6 (a mod 64).
Proof. intros H. exact (bits_split 2 6 a (proj1 H)). Qed.
Lemma bits6_24 x y : 0 <= x -> 0 <= y < 16 -> bits_of 6 (x * 16 + y) = bits_of 2 x ++ bits_of 4 y.
Proof. intros H K. exact (bits_app 2 4 x y H K). Qed.
Lemma bits6_42 x y : 0 <= x -> 0 <= y < 4 -> bits_of 6 (x * 4 + y) = bits_of 4 x ++ bits_of 2 y.
Proof. intros H K. exact (bits_app 4 2 x y H K). Qed.
Lemma sextets_bits l : octets l -> flat_map (bits_of 6) (sextets l) = flat_map (bits_of 8) l ++ repeat false (zeros l).
Proof.
  induction l as [|a|a b|a b c r IH] using list_ind3; intros O; [reflexivity| | |]; cbn [sextets flat_map].
  - inversion O; subst. replace (a mod 4 * 16) with (a mod 4 * 16 + 0) by lia. rewrite bits6_24, bits8_62, bits_zero by dm. rewrite !app_nil_r, <- !app_assoc. reflexivity.
  - inversion O as [|? ? ? O1]; subst. inversion O1; subst. replace (b mod 16 * 4) with (b mod 16 * 4 + 0) by lia. rewrite bits6_24, bits6_42, bits8_62, bits8_44, bits_zero by dm. rewrite !app_nil_r, <- !app_assoc. reflexivity.
  - inversion O as [|? ? ? O1]; subst. inversion O1 as [|? ? ? O2]; subst. inversion O2 as [|? ? ? O3]; subst. rewrite (IH O3). rewrite bits6_24, bits6_42, (bits8_62 a), (bits8_44 b), (bits8_26 c) by dm.
    unfold zeros. cbn [List.length]. rewrite mod3. rewrite <- !app_assoc. reflexivity.
Qed.
Lemma encode_rfc l : octets l -> rfc4648 l (b64_encode l).
Proof.
  intros O. pose proof (sextets_range l O) as R. exists (map Z.to_nat (sextets l)), (padding l), (zeros l). split; [|split; [|split; [|split; [|split]]]].
  - rewrite encode_sextets, map_app, !map_map. f_equal. 2: { induction (padding l) as [|k IH]; [reflexivity|]. cbn. rewrite IH. reflexivity. } apply map_ext_in. intros v Hv. rewrite Forall_forall in R. specialize (R v Hv). rewrite letter_char by lia. rewrite Z2Nat.id by lia. reflexivity.
  - rewrite Forall_map. eapply Forall_impl; [|exact R]. cbn. lia.
  - rewrite <- sextets_bits by exact O. clear - R. induction R as [|v q H _ IH]; [reflexivity|]. cbn [map flat_map]. rewrite IH, Z2Nat.id by lia. reflexivity.
  - unfold zeros. destruct (List.length l mod 3)%nat as [|[|]]; lia.
  - unfold padding. destruct (List.length l mod 3)%nat as [|[|]]; lia.
  - rewrite map_length. apply sextets_len.
Qed.
(** The specification determines the text. *)
Lemma flat_len {A} k (f : A -> list bool) (F : forall a, List.length (f a) = k) l : List.length (flat_map f l) = (k * List.length l)%nat.
Proof. induction l as [|a l IH]; cbn; [lia|]. rewrite app_length, F, IH. lia. Qed.
Lemma flat_inj q : forall q', Forall (fun v => (v < 64)%nat) q -> Forall (fun v => (v < 64)%nat) q' -> List.length q = List.length q' ->
  flat_map (fun v => bits_of 6 (Z.of_nat v)) q = flat_map (fun v => bits_of 6 (Z.of_nat v)) q' -> q = q'.
Proof.
  induction q as [|v q IH]; intros [|v' q'] R R' L E; try discriminate; [reflexivity|]. cbn in L. injection L as L. inversion R; inversion R'; subst. cbn [flat_map] in E.
  apply app_len_inj in E as [E1 E2]; [|rewrite !bits_len; reflexivity]. apply bits_inj in E1; [|change (2 ^ Z.of_nat 6) with 64; lia|change (2 ^ Z.of_nat 6) with 64; lia].
  f_equal; [lia|]. apply IH; assumption.
Qed.
Lemma rfc_unique l s s' : rfc4648 l s -> rfc4648 l s' -> s = s'.
Proof.
  intros (q & pad & z & E & R & B & Z & P & M) (q' & pad' & z' & E' & R' & B' & Z' & P' & M').
  assert (L : (6 * List.length q = 8 * List.length l + z /\ 6 * List.length q' = 8 * List.length l + z')%nat).
  { split; [apply (f_equal (@List.length bool)) in B; rename B into K|apply (f_equal (@List.length bool)) in B'; rename B' into K];
      rewrite app_length, repeat_length, !(flat_len 6), !(flat_len 8) in K by (intros; apply bits_len); exact K. }
  assert (List.length q = List.length q') by lia. assert (z = z') by lia. subst z'.
  assert (q = q') by (apply flat_inj; congruence). subst q'.
  assert (pad = pad'). { clear - P P' M M'. assert (A : ((List.length q + pad) - (List.length q + pad') = pad - pad')%nat) by lia.
    apply Nat.mod_divides in M as [c M]; [|lia]. apply Nat.mod_divides in M' as [c' M']; [|lia]. lia. }
  subst pad'. rewrite <- E' in E. clear - E. revert s' E. induction s as [|x s IH]; intros [|y s'] E; try discriminate; [reflexivity|]. cbn in E. injection E as -> E. f_equal. auto.
Qed.

(** ** The world *)
Definition b64_good : good := {| g_f := g_f prelude_good; g_x := fun x _ l => if String.eqb x "base64" then forallb (fun b => (0 <=? b) && (b <? 256)) l else true |}.
Lemma is_octets l : forallb (fun b => (0 <=? b) && (b <? 256)) l = true -> octets l.
Proof. intros H. apply Forall_forall. intros b I. rewrite forallb_forall in H. specialize (H b I). lia. Qed.
Theorem b64_world_laws strict tys : world_laws (b64_world strict) b64_good (prelude_marks tys).
Proof.
  destruct (prelude_world_laws tys) as (A & B & C). split; [exact A|]. split; [|exact C].
  intros x vs l b rest. cbn [b64_world w_xenc w_xdec b64_good g_x]. destruct (String.eqb x "base64") eqn:E; [|apply (B x vs l b rest)].
  destruct vs; [|discriminate]. intros H G R. apply Ok_inj in H. subst b. rewrite R by reflexivity. rewrite app_nil_r, decode_encode by (apply is_octets, G). reflexivity.
Qed.
Theorem b64_world_suffixing strict : world_suffixing (b64_world strict).
Proof.
  destruct prelude_world_suffixing as [A B]. split; [exact A|]. intros x vs l a rest. cbn [b64_world w_xdec]. destruct (String.eqb x "base64"); [|apply (B x vs l a rest)].
  destruct vs; [|discriminate]. destruct (b64_decode strict l); [|discriminate]. intros H. apply Ok_inj in H. injection H as <- <-. exists (List.length l). rewrite skipn_all. split; [lia|reflexivity].
Qed.
