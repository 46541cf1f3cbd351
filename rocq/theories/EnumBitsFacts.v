(** Facts about enums and bitfields. *)
From Verif Require Import Scalar ScalarFacts ConstInt ConstIntFacts EnumBits PreludeFacts.

Definition names {A} (l : list (string * A)) : list string := map fst l.

Lemma lookup_none {A} n (l : list (string * A)) : lookup n l = None <-> ~ In n (names l).
Proof.
  unfold lookup, names. induction l as [|[m a] l IH]; cbn [find fst snd map]; [split; [intros _ []|reflexivity]|].
  destruct (String.eqb_spec m n) as [->|N].
  - split; [discriminate|]. intros H. exfalso. apply H. now left.
  - rewrite IH. cbn. split; [intros H [E|E]; [congruence|contradiction] | intros H K; apply H; now right].
Qed.

Lemma lookup_in {A} n (a : A) l : NoDup (names l) -> (lookup n l = Some a <-> In (n, a) l).
Proof.
  unfold names, lookup. induction l as [|[m b] l IH]; cbn [find fst snd map]; intros ND; [split; [discriminate|intros []]|].
  inversion ND as [|? ? Hn ND']; subst.
  destruct (String.eqb_spec m n) as [->|N].
  - split; [intros E; injection E as ->; now left|].
    intros [E|E]; [injection E as ->; reflexivity|].
    exfalso. apply Hn. change n with (fst (n, a)). now apply in_map.
  - rewrite IH by exact ND'. cbn. split; [now right|]. intros [E|E]; [congruence|exact E].
Qed.

(** ** Conversion: structure of the result *)

Inductive conv_rel (rep : scalar) : option Z -> Z -> list (string * eitem) -> list (string * evalue) -> Prop :=
| cr_nil last c : conv_rel rep last c [] []
| cr_def last c n : conv_rel rep last c [(n, IDefault)] [(n, EvDefault)]
| cr_expr last c n v todo out : conv_rel rep (Some v) 1 todo out ->
    conv_rel rep last c ((n, IExpr v) :: todo) ((n, EvLit v) :: out)
| cr_auto b c n todo out : in_range rep c = true -> conv_rel rep (Some b) (c + 1) todo out ->
    conv_rel rep (Some b) c ((n, INone) :: todo) ((n, EvAuto b c) :: out).

Lemma convert_enum_loop_rel rep todo : forall items last c out,
  convert_enum_loop rep items last c false todo = Ok out ->
  exists new, out = items ++ new /\ conv_rel rep last c todo new.
Proof.
  induction todo as [|[n it] todo IH]; intros items last c out; cbn [convert_enum_loop].
  - intros E. apply Ok_inj in E. subst. exists []. split; [now rewrite app_nil_r|constructor].
  - destruct (lookup n items) eqn:L; [discriminate|].
    destruct it as [|v|].
    + destruct todo as [|[n2 it2] todo].
      * cbn. intros E. apply Ok_inj in E. subst. exists [(n, EvDefault)]. split; [reflexivity|constructor].
      * cbn. destruct (lookup n2 _); discriminate.
    + intros E. apply IH in E as (new & -> & R). exists ((n, EvLit v) :: new).
      rewrite <- app_assoc. split; [reflexivity|now constructor].
    + destruct last as [b|]; [|discriminate]. destruct (in_range rep c) eqn:Ic; [|discriminate].
      intros E. apply IH in E as (new & -> & R). exists ((n, EvAuto b c) :: new).
      rewrite <- app_assoc. split; [reflexivity|now constructor].
Qed.

Lemma convert_enum_loop_nodup rep todo : forall items last c hd out,
  NoDup (names items) ->
  convert_enum_loop rep items last c hd todo = Ok out -> NoDup (names out).
Proof.
  assert (forall n (a : evalue) items, lookup n items = None -> NoDup (names items) -> NoDup (names (items ++ [(n, a)]))) as K.
  { intros n a items L ND. unfold names. rewrite map_app. cbn.
    apply (Permutation.Permutation_NoDup (l := n :: map fst items)).
    - apply Permutation.Permutation_cons_append.
    - constructor; [apply lookup_none, L|exact ND]. }
  induction todo as [|[n it] todo IH]; intros items last c hd out ND; cbn [convert_enum_loop].
  - intros E. apply Ok_inj in E. now subst.
  - destruct (lookup n items) eqn:L; [discriminate|]. destruct hd; [discriminate|].
    destruct it as [|v|].
    + apply IH. now apply K.
    + apply IH. now apply K.
    + destruct last as [b|]; [|discriminate]. destruct (in_range rep c); [|discriminate].
      apply IH. now apply K.
Qed.

Lemma convert_enum_names rep todo out : convert_enum rep todo = Ok out -> names out = names todo.
Proof.
  intros E. apply convert_enum_loop_rel in E as (new & -> & R). cbn [app].
  induction R; cbn; try reflexivity; unfold names in *; now rewrite IHR.
Qed.

Lemma eval_enum_names chk rep items out : eval_enum chk rep items = Ok out -> names out = names items.
Proof.
  revert out. induction items as [|[n v] items IH]; intros out; cbn [eval_enum].
  - intros E. apply Ok_inj in E. now subst.
  - destruct (eval_evalue chk rep v); cbn [bind]; try discriminate.
    destruct (eval_enum chk rep items) as [r| | |]; cbn [bind]; try discriminate.
    intros E. apply Ok_inj in E. subst. unfold names in *. cbn. now rewrite (IH r eq_refl).
Qed.

Lemma eval_enum_nth chk rep items out : eval_enum chk rep items = Ok out ->
  forall i n v, nth_error items i = Some (n, v) ->
  exists x, eval_evalue chk rep v = Ok x /\ nth_error out i = Some (n, x).
Proof.
  revert out. induction items as [|[n0 v0] items IH]; intros out; cbn [eval_enum].
  - intros _ [|i] n v; discriminate.
  - destruct (eval_evalue chk rep v0) eqn:Ev; cbn [bind]; try discriminate.
    destruct (eval_enum chk rep items) as [r| | |] eqn:Er; cbn [bind]; try discriminate.
    intros E. apply Ok_inj in E. subst. intros [|i] n v Hn; cbn in *.
    + injection Hn as <- <-. exists a. now split.
    + apply (IH r eq_refl i n v Hn).
Qed.

(** [nearest_explicit todo i j v]: item j is the last explicit one at or before i. *)
Definition nearest_explicit (todo : list (string * eitem)) (i j : nat) (v : Z) : Prop :=
  (j <= i)%nat /\ (exists n, nth_error todo j = Some (n, IExpr v)) /\
  (forall k, (j < k <= i)%nat -> exists n, nth_error todo k = Some (n, INone)).

Lemma conv_rel_nth rep last c todo out : conv_rel rep last c todo out ->
  forall i n x, nth_error out i = Some (n, x) ->
  match x with
  | EvDefault => nth_error todo i = Some (n, IDefault) /\ S i = length todo
  | EvLit v => nth_error todo i = Some (n, IExpr v)
  | EvAuto b k => nth_error todo i = Some (n, INone) /\ in_range rep k = true /\
      ((exists j, nearest_explicit todo i j b /\ k = Z.of_nat (i - j)) \/
       (last = Some b /\ k = c + Z.of_nat i /\
        forall m, (m <= i)%nat -> exists n, nth_error todo m = Some (n, INone)))
  end.
Proof.
  induction 1 as [last c|last c n0|last c n0 v todo out R IH|b c n0 todo out Ic R IH]; intros i n x Hx.
  - destruct i; discriminate.
  - destruct i as [|[|i]]; try discriminate. cbn in Hx. injection Hx as <- <-. now split.
  - destruct i as [|i]; cbn in Hx.
    + injection Hx as <- <-. reflexivity.
    + specialize (IH i n x Hx). destruct x as [|v'|b k].
      * cbn. split; [apply IH|]. f_equal. apply IH.
      * exact IH.
      * destruct IH as (Hn & Hr & Hc). cbn [nth_error]. split; [exact Hn|]. split; [exact Hr|]. left.
        destruct Hc as [(j & (Hj & (nj & Hnj) & Hk) & E)|(E & Ek & Hm)].
        -- exists (S j). split; [|cbn; exact E]. split; [lia|]. split; [exists nj; exact Hnj|].
           intros m Hm. destruct m as [|m]; [lia|]. cbn. apply Hk. lia.
        -- injection E as <-. exists 0%nat. split; [|cbn; lia].
           split; [lia|]. split; [exists n0; reflexivity|].
           intros m Hm'. destruct m as [|m]; [lia|]. cbn. apply Hm. lia.
  - destruct i as [|i]; cbn in Hx.
    + injection Hx as <- <-. cbn. split; [reflexivity|]. split; [exact Ic|]. right. repeat split; try lia.
      intros m Hm. replace m with 0%nat by lia. now exists n0.
    + specialize (IH i n x Hx). destruct x as [|v'|b' k].
      * cbn. split; [apply IH|]. f_equal. apply IH.
      * exact IH.
      * destruct IH as (Hn & Hr & Hc). cbn [nth_error]. split; [exact Hn|]. split; [exact Hr|].
        destruct Hc as [(j & (Hj & (nj & Hnj) & Hk) & E)|(E & Ek & Hm)].
        -- left. exists (S j). split; [|cbn; exact E]. split; [lia|]. split; [exists nj; exact Hnj|].
           intros m Hm. destruct m as [|m]; [lia|]. cbn. apply Hk. lia.
        -- injection E as ->. right. repeat split; try lia.
           intros m Hm'. destruct m as [|m]; [now exists n0|]. cbn. apply Hm. lia.
Qed.

Lemma conv_rel_length rep last c todo out : conv_rel rep last c todo out -> length out = length todo.
Proof. induction 1; cbn; congruence. Qed.

(** the values of an accepted enum, position by position *)
Lemma enum_values_lemma rep todo items out :
  convert_enum rep todo = Ok items -> eval_enum true rep items = Ok out ->
  length out = length todo /\
  forall i n it, nth_error todo i = Some (n, it) ->
   match it with
   | IExpr v => nth_error out i = Some (n, Some v)
   | IDefault => nth_error out i = Some (n, None) /\ S i = length todo
   | INone => exists j v, nearest_explicit todo i j v
              /\ nth_error out i = Some (n, Some (v + Z.of_nat (i - j)))
              /\ in_range rep (v + Z.of_nat (i - j)) = true
   end.
Proof.
  intros C E. pose proof (convert_enum_names _ _ _ C) as Nm.
  apply convert_enum_loop_rel in C as (new & -> & R). cbn [app] in *.
  split.
  { rewrite <- (map_length fst out). fold (names out). rewrite (eval_enum_names _ _ _ _ E).
    unfold names. rewrite map_length. apply (conv_rel_length _ _ _ _ _ R). }
  intros i n it Hi.
  assert (exists x, nth_error new i = Some (n, x)) as (x & Hx).
  { assert (nth_error (names new) i = Some n) as K by (rewrite Nm; unfold names; rewrite nth_error_map, Hi; reflexivity).
    unfold names in K. rewrite nth_error_map in K. destruct (nth_error new i) as [[n' x]|]; [|discriminate].
    injection K as <-. now exists x. }
  pose proof (conv_rel_nth _ _ _ _ _ R i n x Hx) as K.
  destruct (eval_enum_nth _ _ _ _ E i n x Hx) as (y & Ey & Hy).
  destruct x as [|v|b k].
  - destruct K as [K1 K2]. rewrite Hi in K1. injection K1 as ->. cbn in Ey. apply Ok_inj in Ey. subst. now split.
  - rewrite Hi in K. injection K as ->. cbn in Ey. apply Ok_inj in Ey. now subst.
  - destruct K as (K1 & Kr & [(j & J & Ek)|(F & _)]); [|discriminate].
    rewrite Hi in K1. injection K1 as ->. exists j, b. split; [exact J|].
    unfold eval_evalue in Ey.
    pose proof (proj1 (arith_lemma rep b k)) as [A1 A2].
    destruct (in_range rep (b + k)) eqn:Ir.
    + rewrite A1 in Ey by (apply in_range_iff; exact Ir). cbn in Ey. apply Ok_inj in Ey. subst. now split.
    + rewrite A2 in Ey; [discriminate|]. rewrite <- in_range_iff. rewrite Ir. discriminate.
Qed.

(** nothing is accepted after a default arm, and names are unique *)
Lemma convert_enum_default_last rep todo items : convert_enum rep todo = Ok items ->
  NoDup (names todo) /\
  forall i n, nth_error todo i = Some (n, IDefault) -> S i = length todo.
Proof.
  intros C. pose proof (convert_enum_names _ _ _ C) as Nm.
  split.
  - rewrite <- Nm. eapply convert_enum_loop_nodup; [|exact C]. constructor.
  - apply convert_enum_loop_rel in C as (new & -> & R). clear Nm. cbn [app] in R.
    intros i n Hi.
    revert i n Hi. induction R; intros i m Hi.
    + destruct i; discriminate.
    + destruct i as [|[|i]]; try discriminate. reflexivity.
    + destruct i as [|i]; [discriminate|]. cbn in *. f_equal. eapply IHR, Hi.
    + destruct i as [|i]; [discriminate|]. cbn in *. f_equal. eapply IHR, Hi.
Qed.

(** if the first item is explicit (as the parser requires) conversion never panics *)
Lemma convert_enum_no_panic rep n v todo : convert_enum rep ((n, IExpr v) :: todo) <> Panic
  /\ convert_enum rep ((n, IExpr v) :: todo) <> Hang.
Proof.
  unfold convert_enum. cbn [convert_enum_loop lookup find].
  assert (forall todo items b c hd, convert_enum_loop rep items (Some b) c hd todo <> Panic
     /\ convert_enum_loop rep items (Some b) c hd todo <> Hang) as K.
  { clear. induction todo as [|[n it] todo IH]; intros items b c hd; cbn [convert_enum_loop]; [split; discriminate|].
    destruct (lookup n items); [split; discriminate|]. destruct hd; [split; discriminate|].
    destruct it; try apply IH. destruct (in_range rep c); [apply IH|split; discriminate]. }
  apply K.
Qed.

(** ** from_repr / to_repr *)

Definition values_distinct (items : list (string * option Z)) : Prop :=
  NoDup (names items) /\
  (forall i j n m v, nth_error items i = Some (n, Some v) -> nth_error items j = Some (m, Some v) -> i = j) /\
  (forall i n, nth_error items i = Some (n, None) -> S i = length items).

Lemma vd_tail p items : values_distinct (p :: items) -> values_distinct items.
Proof.
  intros (A & B & C). split; [|split].
  - unfold names in *. cbn in A. now inversion A.
  - intros i j n m v H1 H2. specialize (B (S i) (S j) n m v H1 H2). lia.
  - intros i n H. specialize (C (S i) n H). cbn in C. lia.
Qed.

Lemma from_repr_named items n v : values_distinct items -> In (n, Some v) items -> from_repr items v = Ok (VNamed n).
Proof.
  induction items as [|[m x] items IH]; intros D; [intros []|].
  intros [E|Hin].
  - injection E as -> ->. cbn. now rewrite Z.eqb_refl.
  - cbn. destruct x as [w|].
    + destruct (Z.eqb_spec v w) as [->|N].
      * exfalso. apply In_nth_error in Hin as (i & Hi).
        destruct D as (_ & B & _). specialize (B 0%nat (S i) m n w eq_refl Hi). lia.
      * apply IH; [eapply vd_tail, D|exact Hin].
    + destruct D as (_ & _ & C). specialize (C 0%nat m eq_refl). destruct items; [destruct Hin|discriminate].
Qed.

Lemma from_repr_unknown items r : (forall n, ~ In (n, Some r) items) ->
  (forall n, ~ In (n, None) items) -> from_repr items r = Err EDecode.
Proof.
  induction items as [|[m [v|]] items IH]; intros H1 H2; [reflexivity| |].
  - cbn. destruct (Z.eqb_spec r v) as [->|N]; [exfalso; eapply H1; now left|].
    apply IH; intros n K; [eapply H1|eapply H2]; right; exact K.
  - exfalso. eapply H2. now left.
Qed.

Lemma from_repr_default items r d : values_distinct items -> In (d, None) items ->
  (forall n, ~ In (n, Some r) items) -> from_repr items r = Ok (VDefault d r).
Proof.
  induction items as [|[m [v|]] items IH]; intros D Hin H1; [destruct Hin| |].
  - cbn. destruct (Z.eqb_spec r v) as [->|N]; [exfalso; eapply H1; now left|].
    apply IH; [eapply vd_tail, D| |intros n K; eapply H1; right; exact K].
    destruct Hin as [E|E]; [discriminate|exact E].
  - destruct Hin as [E|E]; [now injection E as ->|].
    destruct D as (_ & _ & C). specialize (C 0%nat m eq_refl). destruct items; [destruct E|discriminate].
Qed.

Lemma encode_enum_named rep items n v rest : values_distinct items -> In (n, Some v) items ->
  in_range (es_scalar rep) v = true ->
  encode_enum rep items (VNamed n) = Some (scalar_bytes rep v) /\
  decode_enum rep items (scalar_bytes rep v ++ rest) = Ok (VNamed n, rest).
Proof.
  intros D Hin Hr. split.
  - unfold encode_enum, to_repr. apply (lookup_in n (Some v)) in Hin; [|apply D]. now rewrite Hin.
  - unfold decode_enum. rewrite decode_scalar_roundtrip by exact Hr. cbn [bind].
    rewrite (from_repr_named items n v D Hin). reflexivity.
Qed.

Lemma encode_enum_default rep items d raw rest : values_distinct items -> In (d, None) items ->
  in_range (es_scalar rep) raw = true ->
  encode_enum rep items (VDefault d raw) = Some (scalar_bytes rep raw) /\
  (decode_enum rep items (scalar_bytes rep raw ++ rest) = Ok (VDefault d raw, rest)
    <-> forall n, ~ In (n, Some raw) items).
Proof.
  intros D Hin Hr. split.
  - unfold encode_enum, to_repr. apply (lookup_in d None) in Hin; [|apply D]. now rewrite Hin.
  - unfold decode_enum. rewrite decode_scalar_roundtrip by exact Hr. cbn [bind]. split.
    + intros E n K. rewrite (from_repr_named items n raw D K) in E. discriminate.
    + intros K. rewrite (from_repr_default items raw d D Hin K). reflexivity.
Qed.

Lemma decode_enum_unknown rep items raw rest : in_range (es_scalar rep) raw = true ->
  (forall n, ~ In (n, Some raw) items) -> (forall n, ~ In (n, None) items) ->
  decode_enum rep items (scalar_bytes rep raw ++ rest) = Err EDecode.
Proof.
  intros Hr H1 H2. unfold decode_enum. rewrite decode_scalar_roundtrip by exact Hr. cbn [bind].
  rewrite from_repr_unknown by assumption. reflexivity.
Qed.

(** Decoding then encoding restores the bytes, for every enum. *)
Lemma from_repr_to_repr items r x : NoDup (names items) -> from_repr items r = Ok x -> to_repr items x = Some r.
Proof.
  intros ND. enough (forall l, (exists pre, items = pre ++ l) -> from_repr l r = Ok x -> to_repr items x = Some r) as K.
  { apply K. now exists []. }
  induction l as [|[n [v|]] l IH]; intros (pre & E); cbn [from_repr]; [discriminate| |].
  - destruct (Z.eqb_spec r v) as [->|N].
    + intros K. apply Ok_inj in K. subst x. cbn.
      assert (lookup n items = Some (Some v)) as ->; [|reflexivity].
      apply lookup_in; [exact ND|]. rewrite E. apply in_or_app. right. now left.
    + apply IH. exists (pre ++ [(n, Some v)]). now rewrite <- app_assoc.
  - intros K. apply Ok_inj in K. subst x. cbn.
    assert (lookup n items = Some None) as ->; [|reflexivity].
    apply lookup_in; [exact ND|]. rewrite E. apply in_or_app. right. now left.
Qed.

Lemma decode_enum_reencode rep items l x rest : NoDup (names items) -> bytes_ok l ->
  decode_enum rep items l = Ok (x, rest) ->
  exists b, encode_enum rep items x = Some b /\ l = b ++ rest.
Proof.
  intros ND Hl. unfold decode_enum.
  destruct (decode_scalar rep l) as [[v r]| | |] eqn:E; cbn [bind]; try discriminate.
  destruct (from_repr items v) eqn:F; cbn [bind]; try discriminate.
  intros K. apply Ok_inj in K. injection K as <- <-.
  exists (scalar_bytes rep v). split.
  - unfold encode_enum. rewrite (from_repr_to_repr items v a ND F). reflexivity.
  - apply (decode_scalar_reencode rep l v r Hl E).
Qed.

(** ** Bitfields *)

Lemma fold_lor_bit items : forall acc i, 0 <= i ->
  Z.testbit (fold_left (fun acc (p : string * Z) => Z.lor acc (snd p)) items acc) i
  = (Z.testbit acc i || existsb (fun p => Z.testbit (snd p) i) items)%bool.
Proof.
  induction items as [|p items IH]; intros acc i Hi; cbn [fold_left existsb]; [now rewrite orb_false_r|].
  rewrite IH by exact Hi. rewrite Z.lor_spec. now rewrite orb_assoc.
Qed.

Lemma all_fields_bit items i : 0 <= i ->
  Z.testbit (all_fields items) i = existsb (fun p => Z.testbit (snd p) i) items.
Proof. intros H. unfold all_fields. rewrite fold_lor_bit by exact H. now rewrite Z.bits_0. Qed.

Lemma wrap_bit_low s v i : 0 <= i < bits s -> Z.testbit (wrap s v) i = Z.testbit v i.
Proof.
  intros H. rewrite <- (Z.mod_pow2_bits_low (wrap s v) (bits s) i) by lia.
  rewrite wrap_mod. apply Z.mod_pow2_bits_low. lia.
Qed.

(** values of a type are determined by their low bits *)
Lemma range_bits_inj s a b : in_range s a = true -> in_range s b = true ->
  (forall i, 0 <= i < bits s -> Z.testbit a i = Z.testbit b i) -> a = b.
Proof.
  intros Ha Hb H. rewrite <- (wrap_id s a Ha), <- (wrap_id s b Hb). apply wrap_eq_mod.
  apply Z.bits_inj'. intros i Hi. pose proof (bits_pos s).
  destruct (Z.ltb_spec i (bits s)).
  - rewrite !Z.mod_pow2_bits_low by lia. apply H. lia.
  - rewrite !Z.mod_pow2_bits_high by lia. reflexivity.
Qed.

(** the raw value has no bit outside the declared flags *)
Definition only_declared (rep : scalar) (items : list (string * Z)) (r : Z) : Prop :=
  forall i, 0 <= i < bits rep -> Z.testbit r i = true ->
    exists n v, In (n, v) items /\ Z.testbit v i = true.

Lemma bf_from_repr_iff rep items r : in_range rep r = true ->
  (bf_from_repr rep items r = Ok r <-> only_declared rep items r) /\
  (~ only_declared rep items r -> bf_from_repr rep items r = Err EDecode).
Proof.
  intros Hr. unfold bf_from_repr.
  assert ((Z.land r (wrap rep (Z.lnot (all_fields items))) = 0) <-> only_declared rep items r) as K.
  { split.
    - intros E i Hi Hb. assert (Z.testbit (Z.land r (wrap rep (Z.lnot (all_fields items)))) i = false) as F
        by (rewrite E; apply Z.bits_0).
      rewrite Z.land_spec, Hb, wrap_bit_low, Z.lnot_spec, all_fields_bit in F by lia. cbn in F.
      apply negb_false_iff in F. apply existsb_exists in F as ([n v] & Hin & Hv). now exists n, v.
    - intros D. apply (range_bits_inj rep).
      + apply bitwise_range; [exact Hr|apply wrap_in_range].
      + apply in_range_0.
      + intros i Hi. rewrite Z.land_spec, wrap_bit_low, Z.lnot_spec, all_fields_bit, Z.bits_0 by lia.
        destruct (Z.testbit r i) eqn:B; [|reflexivity]. cbn. apply negb_false_iff, existsb_exists.
        destruct (D i Hi B) as (n & v & Hin & Hv). now exists (n, v). }
  destruct (Z.eqb_spec (Z.land r (wrap rep (Z.lnot (all_fields items)))) 0) as [E|E].
  - apply K in E as D. split; [tauto|contradiction].
  - split; [|reflexivity]. split; [discriminate|]. intros D. exfalso. apply E, K, D.
Qed.

(** the raw value of a set of flags *)
Definition flags_value (items : list (string * Z)) (chosen : string -> bool) : Z :=
  all_fields (filter (fun p => chosen (fst p)) items).

Lemma fold_lor_range s items acc : in_range s acc = true -> Forall (fun p => in_range s (snd p) = true) items ->
  in_range s (fold_left (fun acc (p : string * Z) => Z.lor acc (snd p)) items acc) = true.
Proof.
  intros H F. revert acc H. induction F as [|p items Hp F IH]; intros acc H; [exact H|].
  cbn [fold_left]. apply IH. apply bitwise_range; assumption.
Qed.

Lemma flags_value_range s items chosen : Forall (fun p => in_range s (snd p) = true) items ->
  in_range s (flags_value items chosen) = true.
Proof.
  intros F. unfold flags_value, all_fields. apply fold_lor_range; [apply in_range_0|].
  apply Forall_forall. intros p Hp. apply filter_In in Hp as [Hp _]. rewrite Forall_forall in F. now apply F.
Qed.

Lemma bitfield_roundtrip rep items raw rest : in_range (es_scalar rep) raw = true ->
  (decode_bitfield rep items (encode_bitfield rep raw ++ rest) = Ok (raw, rest)
     <-> only_declared (es_scalar rep) items raw)
  /\ (~ only_declared (es_scalar rep) items raw ->
      decode_bitfield rep items (encode_bitfield rep raw ++ rest) = Err EDecode).
Proof.
  intros Hr. unfold decode_bitfield, encode_bitfield. rewrite decode_scalar_roundtrip by exact Hr. cbn [bind].
  destruct (bf_from_repr_iff (es_scalar rep) items raw Hr) as [A B]. split.
  - rewrite <- A. split.
    + unfold bf_from_repr. destruct (_ =? 0); [reflexivity|discriminate].
    + intros ->. reflexivity.
  - intros N. rewrite (B N). reflexivity.
Qed.

Lemma flags_only_declared rep items chosen : only_declared rep items (flags_value items chosen).
Proof.
  intros i Hi Hb. unfold flags_value in Hb. rewrite all_fields_bit in Hb by lia.
  apply existsb_exists in Hb as ([n v] & Hin & Hv). apply filter_In in Hin as [Hin _]. now exists n, v.
Qed.

(** flags whose values share no bits can be read back individually *)
Definition flags_disjoint (items : list (string * Z)) : Prop :=
  NoDup (names items) /\
  forall n v m w, In (n, v) items -> In (m, w) items -> n <> m -> Z.land v w = 0.

Lemma bf_get_flags rep items chosen n v : flags_disjoint items -> In (n, v) items ->
  0 < v -> in_range rep v = true ->
  bf_get v (flags_value items chosen) = chosen n.
Proof.
  intros [ND D] Hin Hv Hr. unfold bf_get.
  set (p := Z.log2 v). pose proof (Z.log2_nonneg v) as Hp. fold p in Hp.
  pose proof (Z.bit_log2 v Hv) as Bv. fold p in Bv.
  assert (forall i, 0 <= i -> Z.testbit v i = true ->
    Z.testbit (flags_value items chosen) i = chosen n) as K.
  { intros i Hi Bi. unfold flags_value. rewrite all_fields_bit by exact Hi.
    destruct (chosen n) eqn:C.
    - apply existsb_exists. exists (n, v). split; [apply filter_In; now split|exact Bi].
    - destruct (existsb _ _) eqn:X; [|reflexivity]. exfalso.
      apply existsb_exists in X as ([m w] & Hm & Bw). apply filter_In in Hm as [Hm Cm]. cbn in *.
      assert (n <> m) as Hnm by congruence.
      specialize (D n v m w Hin Hm Hnm).
      assert (Z.testbit (Z.land v w) i = false) as Z0 by (rewrite D; apply Z.bits_0).
      rewrite Z.land_spec, Bi, Bw in Z0. discriminate. }
  destruct (chosen n) eqn:C.
  - apply negb_true_iff, Z.eqb_neq. intros E.
    assert (Z.testbit (Z.land (flags_value items chosen) v) p = false) as F by (rewrite E; apply Z.bits_0).
    rewrite Z.land_spec, Bv, K in F by assumption. discriminate.
  - apply negb_false_iff, Z.eqb_eq. apply Z.bits_inj'. intros i Hi. rewrite Z.land_spec, Z.bits_0.
    destruct (Z.testbit v i) eqn:Bi; [rewrite K by assumption; reflexivity|apply andb_false_r].
Qed.

(** automatic values *)
Definition bnearest (todo : list (string * option Z)) (i j : nat) (v : Z) : Prop :=
  (j <= i)%nat /\ (exists n, nth_error todo j = Some (n, Some v)) /\
  (forall k, (j < k <= i)%nat -> exists n, nth_error todo k = Some (n, None)).

Lemma convert_bitfield_loop_spec rep todo : forall items last c out,
  convert_bitfield_loop rep items last c todo = Ok out ->
  exists new, out = items ++ new /\ length new = length todo /\
  forall i n it, nth_error todo i = Some (n, it) ->
    match it with
    | Some v => nth_error new i = Some (n, BvLit v)
    | None => exists b k, nth_error new i = Some (n, BvAuto b k) /\
      ((exists j, bnearest todo i j b /\ k = Z.of_nat (i - j)) \/
       (last = Some b /\ k = c + Z.of_nat i /\
        forall m, (m <= i)%nat -> exists n, nth_error todo m = Some (n, None)))
    end.
Proof.
  induction todo as [|[n0 it0] todo IH]; intros items last c out; cbn [convert_bitfield_loop].
  - intros E. apply Ok_inj in E. subst. exists []. rewrite app_nil_r. repeat split. intros [|i]; discriminate.
  - destruct (lookup n0 items); [discriminate|]. destruct it0 as [v0|].
    + intros E. apply IH in E as (new & -> & L & K). exists ((n0, BvLit v0) :: new).
      rewrite <- app_assoc. split; [reflexivity|]. split; [cbn; now rewrite L|].
      intros [|i] n it Hi; cbn in Hi.
      * injection Hi as <- <-. reflexivity.
      * specialize (K i n it Hi). destruct it as [v|]; [exact K|].
        destruct K as (b & k & Hn & Hc). exists b, k. split; [exact Hn|]. left.
        destruct Hc as [(j & (Hj & (nj & Hnj) & Hk) & E)|(E & Ek & Hm)].
        -- exists (S j). split; [|cbn; exact E]. split; [lia|]. split; [exists nj; exact Hnj|].
           intros m Hm. destruct m as [|m]; [lia|]. cbn. apply Hk. lia.
        -- injection E as <-. exists 0%nat. split; [|cbn; lia].
           split; [lia|]. split; [exists n0; reflexivity|].
           intros m Hm'. destruct m as [|m]; [lia|]. cbn. apply Hm. lia.
    + destruct last as [b0|]; [|discriminate]. destruct (in_range rep c); [|discriminate].
      intros E. apply IH in E as (new & -> & L & K). exists ((n0, BvAuto b0 c) :: new).
      rewrite <- app_assoc. split; [reflexivity|]. split; [cbn; now rewrite L|].
      intros [|i] n it Hi; cbn in Hi.
      * injection Hi as <- <-. exists b0, c. split; [reflexivity|]. right. repeat split; try lia.
        intros m Hm. replace m with 0%nat by lia. now exists n0.
      * specialize (K i n it Hi). destruct it as [v|]; [exact K|].
        destruct K as (b & k & Hn & Hc). exists b, k. split; [exact Hn|].
        destruct Hc as [(j & (Hj & (nj & Hnj) & Hk) & E)|(E & Ek & Hm)].
        -- left. exists (S j). split; [|cbn; exact E]. split; [lia|]. split; [exists nj; exact Hnj|].
           intros m Hm. destruct m as [|m]; [lia|]. cbn. apply Hk. lia.
        -- injection E as ->. right. repeat split; try lia.
           intros m Hm'. destruct m as [|m]; [now exists n0|]. cbn. apply Hm. lia.
Qed.

Lemma eval_bitfield_nth chk rep items out : eval_bitfield chk rep items = Ok out ->
  length out = length items /\
  forall i n v, nth_error items i = Some (n, v) ->
  exists x, eval_bvalue chk rep v = Ok x /\ nth_error out i = Some (n, x).
Proof.
  revert out. induction items as [|[n0 v0] items IH]; intros out; cbn [eval_bitfield].
  - intros E. apply Ok_inj in E. subst. split; [reflexivity|]. intros [|i] n v; discriminate.
  - destruct (eval_bvalue chk rep v0) eqn:Ev; cbn [bind]; try discriminate.
    destruct (eval_bitfield chk rep items) as [r| | |] eqn:Er; cbn [bind]; try discriminate.
    intros E. apply Ok_inj in E. subst. destruct (IH r eq_refl) as [L K].
    split; [cbn; now rewrite L|].
    intros [|i] n v Hn; cbn in *.
    + injection Hn as <- <-. exists a. now split.
    + apply (K i n v Hn).
Qed.

Lemma bitfield_values_lemma rep todo items out :
  convert_bitfield rep todo = Ok items -> eval_bitfield true rep items = Ok out ->
  length out = length todo /\
  forall i n it, nth_error todo i = Some (n, it) ->
   match it with
   | Some v => nth_error out i = Some (n, v)
   | None => exists j v x, bnearest todo i j v /\ nth_error out i = Some (n, x)
       /\ in_range rep x = true
       /\ x mod 2 ^ bits rep = (v * 2 ^ Z.of_nat (i - j)) mod 2 ^ bits rep
       /\ Z.of_nat (i - j) < bits rep
   end.
Proof.
  intros C E. apply convert_bitfield_loop_spec in C as (new & -> & L & K). cbn [app] in *.
  apply eval_bitfield_nth in E as [L2 K2]. split; [congruence|].
  intros i n it Hi. specialize (K i n it Hi). destruct it as [v|].
  - destruct (K2 i n _ K) as (x & Ex & Hx). cbn in Ex. apply Ok_inj in Ex. now subst.
  - destruct K as (b & k & Hn & [(j & J & ->)|(F & _)]); [|discriminate].
    destruct (K2 i n _ Hn) as (x & Ex & Hx). exists j, b, x. split; [exact J|]. split; [exact Hx|].
    cbn [eval_bvalue] in Ex. unfold ci_shl in Ex. rewrite biop_same in Ex.
    unfold rust_shl, shift_amount in Ex.
    destruct ((0 <=? Z.of_nat (i - j)) && (Z.of_nat (i - j) <? bits rep)) eqn:Hk; cbn in Ex; [|discriminate].
    apply Ok_inj in Ex. subst x. apply andb_true_iff in Hk as [_ Hk]. apply Z.ltb_lt in Hk.
    split; [apply wrap_in_range|]. split; [|exact Hk].
    rewrite wrap_mod, Z.shiftl_mul_pow2 by lia. reflexivity.
Qed.
