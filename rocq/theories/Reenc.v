(** Types without redundant representations: what was read is written back. *)
From Verif Require Import ScalarFacts DecRef EncRef RtWf EnumBitsFacts RoundTrip Relax ValidSpec Valid.
Open Scope string_scope. Open Scope Z_scope. Open Scope list_scope.

(** Which types have one representation per value: no bool (any non-zero byte is
    true), no padding, no transforms, no calculated fields, no terminated arrays, no
    [..]-arrays whose last element may be cut, no length-constrained and no
    conditional containers; references to types in [ct] and foreign types in [cf]. *)
Section Canon.
  Variable p : program.
  Variable rf : nat.
  Variable ct cf : string -> bool.
  Definition byte_wide (k : ekind) : bool :=
    match k with
    | KPrim (PScalar e) => (size (es_scalar e) =? 1)%nat
    | KPrim _ => false
    | KRepr r => (size (es_scalar (repr_rep r)) =? 1)%nat
    | KLoop => true
    end.
  Definition same_kind (el : ty) : bool :=
    match el with
    | TScalar _ | TF32 | TF64 | TEnum _ | TBits _ => true
    | TBool => false
    | _ => match kind_of (resolved p rf el) with KLoop => true | _ => false end
    end.
  Fixpoint one_rep (t : ty) : bool :=
    match t with
    | TScalar _ | TF32 | TF64 | TBits _ => true
    | TBool => false
    | TEnum d => nodup (names (en_items d))
    | TForeign f => cf f
    | TRef n _ => match foreign_of p n with Some f => cf f | None => ct n end
    | TArr el (LFixed _) => same_kind el && one_rep el
    | TArr el LRest => same_kind el && byte_wide (kind_of (resolved p rf el)) && one_rep el
    | TArr _ (LTerm _) => false
    | TCont len tg items =>
        negb (is_some len) && negb tg &&
        forallb (fun f => match fa_xs (fst f) with [] => true | _ => false end && negb (is_some (fa_calc (fst f))) && negb (fa_pad (fst f))
                          && negb (is_cont (snd f) && is_some (fa_cond (fst f))) && one_rep (snd f)) items
    end.
  Definition one_rep_decl (d : decl) : bool :=
    match fa_xs (d_attr d) with [] => true | _ => false end &&
    match d_ty d with
    | TCont None true items =>
        forallb (fun f => match fa_xs (fst f) with [] => true | _ => false end && negb (fa_pad (fst f)) && one_rep (snd f) && nodup (leaf_names (flatten_ty (snd f)))) items
    | TCont None false items => one_rep (d_ty d) && nodup (leaf_names (flatten_items items))
    | TCont _ _ _ => false
    | TForeign _ => false
    | t => one_rep t
    end.
  Definition one_rep_program : Prop := forall n d, p n = Some d -> ct n = true -> one_rep_decl d = true.
  Definition one_rep_world (w : world) : Prop :=
    forall f vs l v rest, cf f = true -> bytes_ok l -> w_fdec w f vs l = Ok (v, rest) -> exists b, w_fenc w f vs v = Ok b /\ l = b ++ rest.
End Canon.

Lemma bytes_ok_app a b : bytes_ok (a ++ b) <-> bytes_ok a /\ bytes_ok b.
Proof. apply Forall_app. Qed.
Lemma read_exact_split n l a rest : read_exact n l = Ok (a, rest) -> l = a ++ rest /\ List.length a = n.
Proof.
  unfold read_exact. destruct (Nat.leb_spec n (List.length l)); [|discriminate]. intros H0. apply Ok_inj in H0. injection H0 as <- <-. rewrite firstn_skipn, firstn_length_le by assumption. auto.
Qed.
Lemma scalar_eqb_refl' s : scalar_eqb s s = true. Proof. destruct s; reflexivity. Qed.
Lemma scalar_of_bytes_range t a : in_range (es_scalar t) (scalar_of_bytes t a) = true.
Proof. unfold scalar_of_bytes. apply wrap_in_range. Qed.
Lemma prim_back pr a : bytes_ok a -> List.length a = prim_size pr -> pr <> PBool -> prim_enc pr (prim_of pr a) = Ok a.
Proof.
  intros Hb Hl Hn. destruct pr; [congruence| | |]; cbn [prim_of prim_enc].
  - assert (R : in_range U32 (scalar_of_bytes u32be a) = true) by apply (scalar_of_bytes_range u32be). rewrite R. f_equal. apply scalar_bytes_of_bytes; assumption.
  - assert (R : in_range U64 (scalar_of_bytes u64be a) = true) by apply (scalar_of_bytes_range u64be). rewrite R. f_equal. apply scalar_bytes_of_bytes; assumption.
  - rewrite scalar_eqb_refl'. assert (R : in_range (es_scalar e) (scalar_of_bytes e a) = true) by apply scalar_of_bytes_range. rewrite R. cbn [andb]. f_equal. apply scalar_bytes_of_bytes; assumption.
Qed.
Definition repr_nodup (d : repr) : Prop := match d with RpEnum d => NoDup (names (en_items d)) | RpBits _ => True end.
Lemma repr_back d a v : repr_nodup d -> bytes_ok a -> List.length a = size (es_scalar (repr_rep d)) -> repr_of d a = Ok v -> repr_enc d v = Ok a.
Proof.
  intros ND Hb Hl H. destruct d as [d|d]; cbn [repr_of repr_rep] in *.
  - bi H x Ex. apply Ok_inj in H. subst v. cbn [repr_enc]. destruct (enumdef_dec d d); [|congruence]. rewrite (from_repr_to_repr _ _ _ ND Ex).
    rewrite scalar_of_bytes_range. f_equal. apply scalar_bytes_of_bytes; assumption.
  - bi H x Ex. apply Ok_inj in H. subst v. unfold bf_from_repr in Ex. destruct (_ =? 0); [|discriminate Ex]. apply Ok_inj in Ex. subst x.
    cbn [repr_enc]. destruct (bitsdef_dec d d); [|congruence]. rewrite scalar_of_bytes_range. f_equal. apply scalar_bytes_of_bytes; assumption.
Qed.
Lemma chunks_spec n k l : List.length l = (n * k)%nat -> concat (chunks n k l) = l /\ Forall (fun b => List.length b = k) (chunks n k l) /\ (bytes_ok l -> Forall bytes_ok (chunks n k l)).
Proof.
  revert l. induction n as [|n IH]; intros l Hl; cbn [chunks].
  - destruct l; [|discriminate]. repeat split; constructor.
  - destruct (IH (skipn k l)) as (H1 & H2 & H3); [rewrite skipn_length; lia|]. cbn [concat]. rewrite H1, firstn_skipn. split; [reflexivity|]. split.
    + constructor; [apply firstn_length_le; lia|assumption].
    + intros Hb. rewrite <- (firstn_skipn k l) in Hb. apply bytes_ok_app in Hb as (A & B). constructor; auto.
Qed.

Lemma resolved_flat p rf t : match t with TRef _ _ => false | _ => true end = true -> resolved p rf t = t.
Proof. destruct t; try discriminate; destruct rf; reflexivity. Qed.

Section Reenc.
  Variable w : world.
  Variable p : program.
  Variable rf : nat.
  Variable ct cf : string -> bool.
  Hypothesis Hw : one_rep_world cf w.
  Hypothesis Hchk : w_chk w = true.
  Variable inputs : string -> option val.
  Variable rec : string -> list val -> list Z -> res ioerr (val * list Z).
  Variable erec : string -> list val -> val -> res ioerr (list Z * val).
  Hypothesis Hrec : forall n vs l v rest, ct n = true -> bytes_ok l -> Z.of_nat (List.length l) < 2 ^ 64 -> rec n vs l = Ok (v, rest) -> exists b, erec n vs v = Ok (b, v) /\ l = b ++ rest.

  Notation ev := (ev w inputs).
  Notation sd_type := (sd_type w p rf inputs rec).
  Notation se_type := (se_type w p rf inputs None erec).

  Lemma ev_mono ed en e v : sub ed en -> ev ed e = Ok v -> ev en e = Ok v.
  Proof. intros H. unfold Spec.ev, eval. apply reval_mono. intros n x _. apply H. Qed.

  Lemma prims_back pr n l v rest : pr <> PBool -> bytes_ok l -> read_prims pr (n * prim_size pr) l = Ok (v, rest) -> exists vs b, v = VArr vs /\ List.length vs = n /\ mapM (prim_enc pr) vs = Ok b /\ l = concat b ++ rest.
  Proof.
    intros Hp Hb H. unfold read_prims in H. bi H y Ey. destruct y as [a r]. apply Ok_inj in H. injection H as <- <-. apply read_exact_split in Ey as (-> & Hl).
    rewrite Nat.div_mul by (pose proof (prim_size_pos pr); lia). destruct (chunks_spec n (prim_size pr) a Hl) as (C1 & C2 & C3). apply bytes_ok_app in Hb as (Hb & _). specialize (C3 Hb).
    exists (map (prim_of pr) (chunks n (prim_size pr) a)), (chunks n (prim_size pr) a). split; [reflexivity|]. split; [|split; [|congruence]].
    - rewrite map_length. clear. revert a. induction n; intros a; cbn; [reflexivity|f_equal; auto].
    - clear C1 Hl. revert C2 C3. generalize (chunks n (prim_size pr) a). induction l as [|c cs IH]; intros F1 F2; cbn [mapM map]; [reflexivity|].
      inversion F1; inversion F2; subst. rewrite prim_back by assumption. cbn [bind]. rewrite IH by assumption. reflexivity.
  Qed.
  Lemma mapM_reprs d cs : repr_nodup d -> Forall (fun b => List.length b = size (es_scalar (repr_rep d))) cs -> Forall bytes_ok cs -> forall vs, mapM (repr_of d) cs = Ok vs -> mapM (repr_enc d) vs = Ok cs.
  Proof.
    intros ND. induction cs as [|c cs IH]; cbn [mapM]; intros F1 F2 vs H; [apply Ok_inj in H; subst; reflexivity|]. bi H y Ey. bi H ys Eys. apply Ok_inj in H. subst vs.
    inversion F1; inversion F2; subst. cbn [mapM]. rewrite (repr_back d c y) by assumption. cbn [bind]. rewrite (IH H2 H6 _ Eys). reflexivity.
  Qed.
  Lemma mapM_length {E A B} (f : A -> res E B) l r : mapM f l = Ok r -> List.length r = List.length l.
  Proof. apply mapM_len. Qed.
  Lemma reprs_back d n l v rest : repr_nodup d -> bytes_ok l -> read_reprs d (n * size (es_scalar (repr_rep d))) l = Ok (v, rest) -> exists vs b, v = VArr vs /\ List.length vs = n /\ mapM (repr_enc d) vs = Ok b /\ l = concat b ++ rest.
  Proof.
    intros ND Hb H. unfold read_reprs in H. bi H y Ey. destruct y as [a r]. bi H vs Evs. apply Ok_inj in H. injection H as <- <-. apply read_exact_split in Ey as (-> & Hl).
    rewrite Nat.div_mul in Evs by (pose proof (size_pos (es_scalar (repr_rep d))); lia). destruct (chunks_spec n _ a Hl) as (C1 & C2 & C3). apply bytes_ok_app in Hb as (Hb & _). specialize (C3 Hb).
    exists vs, (chunks n (size (es_scalar (repr_rep d))) a). split; [reflexivity|]. split; [|split; [eapply mapM_reprs; eassumption|congruence]].
    rewrite (mapM_len _ _ _ Evs). clear. revert a. induction n; intros a; cbn; [reflexivity|f_equal; auto].
  Qed.
  Lemma times_back (f : list Z -> res ioerr (val * list Z)) (h : val -> res ioerr (list Z * val)) n : (forall l v rest, bytes_ok l -> f l = Ok (v, rest) -> exists b, h v = Ok (b, v) /\ l = b ++ rest) ->
    forall l vs rest, bytes_ok l -> sd_times f n l = Ok (vs, rest) -> List.length vs = n /\ exists bs, se_times h n vs = Ok (combine bs vs) /\ List.length bs = n /\ l = concat bs ++ rest.
  Proof.
    intros H. induction n as [|n IH]; cbn [sd_times]; intros l vs rest Hb E.
    - apply Ok_inj in E. injection E as <- <-. split; [reflexivity|]. exists []. auto.
    - bi E y Ey. destruct y as [v l1]. bi E z Ez. destruct z as [vs' l2]. apply Ok_inj in E. injection E as <- <-. destruct (H _ _ _ Hb Ey) as (b & Eb & ->).
      apply bytes_ok_app in Hb as (_ & Hb). destruct (IH _ _ _ Hb Ez) as (L & bs & E1 & E2 & ->). split; [cbn; congruence|]. exists (b :: bs). cbn [se_times]. rewrite Eb. cbn [bind]. rewrite E1. cbn.
      split; [reflexivity|]. split; [congruence|]. rewrite app_assoc. reflexivity.
  Qed.
  Lemma all_back (f : list Z -> res ioerr (val * list Z)) (h : val -> res ioerr (list Z * val)) : (forall l v rest, bytes_ok l -> f l = Ok (v, rest) -> exists b, h v = Ok (b, v) /\ l = b ++ rest) ->
    forall fuel l vs, bytes_ok l -> sd_all f fuel l = Ok vs -> exists bs, mapM h vs = Ok (combine bs vs) /\ List.length bs = List.length vs /\ l = concat bs.
  Proof.
    intros H. induction fuel as [|fuel IH]; cbn [sd_all]; intros l vs Hb E; [discriminate E|]. destruct l as [|z l]; [apply Ok_inj in E; subst; exists []; auto|].
    bi E y Ey. destruct y as [v l1]. destruct (_ <? _)%nat; [|discriminate E]. bi E vs' Ez. apply Ok_inj in E. subst vs. destruct (H _ _ _ Hb Ey) as (b & Eb & Hl).
    rewrite Hl in Hb. apply bytes_ok_app in Hb as (_ & Hb). destruct (IH _ _ Hb Ez) as (bs & E1 & E2 & ->). exists (b :: bs). cbn [mapM]. rewrite Eb. cbn [bind]. rewrite E1. cbn. auto.
  Qed.
  Lemma combine_snd (bs : list (list Z)) (vs : list val) : List.length bs = List.length vs -> map snd (combine bs vs) = vs.
  Proof. revert vs. induction bs as [|b bs IH]; intros [|v vs] L; try discriminate; [reflexivity|]. cbn. f_equal. apply IH. now injection L. Qed.
  Lemma combine_fst (bs : list (list Z)) (vs : list val) : List.length bs = List.length vs -> map fst (combine bs vs) = bs.
  Proof. revert vs. induction bs as [|b bs IH]; intros [|v vs] L; try discriminate; [reflexivity|]. cbn. f_equal. apply IH. now injection L. Qed.

  Lemma kind_spec el : same_kind p rf el = true -> one_rep p rf ct cf el = true ->
    match kind_of (resolved p rf el) with KPrim pr => pr <> PBool | KRepr d => repr_nodup d | KLoop => True end.
  Proof.
    intros H1 H2.
    assert (G : forall k, match k with KLoop => true | _ => false end = true -> match k with KPrim pr => pr <> PBool | KRepr d => repr_nodup d | KLoop => True end) by (intros [| |]; try discriminate; auto).
    destruct el; cbn [same_kind one_rep] in H1, H2; try discriminate H1; try (apply G; exact H1); (rewrite resolved_flat by reflexivity); cbn [kind_of repr_nodup]; try discriminate; try exact I. apply nodup_NoDup, H2.
  Qed.

  Lemma len_of_nat nv n : len_of nv = Ok n -> exists s, nv = VInt s (Z.of_nat n).
  Proof. intros E. apply len_of_ok in E as (s & -> & _). eauto. Qed.
  Lemma arr_size_nat nv k m : (0 < k)%nat -> arr_size (w_chk w) k nv = Ok m -> exists s n, nv = VInt s (Z.of_nat n) /\ m = (n * k)%nat.
  Proof.
    intros Hk E. apply arr_size_ok in E as (s & z & -> & Hz & Em & _ & Hc). specialize (Hc Hchk). exists s, (Z.to_nat z). rewrite Z2Nat.id by lia. split; [reflexivity|].
    rewrite Z.mod_small in Em by nia. apply Nat2Z.inj. rewrite Nat2Z.inj_mul, Z2Nat.id by lia. exact Em.
  Qed.

  (** Array lengths are below 2^64 (the code compares [len as usize]). *)
  Lemma type_back ed en t : sub ed en -> one_rep p rf ct cf t = true -> forall l v rest, bytes_ok l -> Z.of_nat (List.length l) < 2 ^ 64 -> sd_type ed t l = Ok (v, rest) -> exists b, se_type en t v = Ok (b, v) /\ l = b ++ rest.
  Proof.
    intros Hs. induction t using ty_ind'; intros Ht l0 v rest Hb Hlen HD; cbn [one_rep] in Ht; try discriminate Ht; cbn [Spec.sd_type Spec.se_type] in *.
    - unfold sd_prim in HD. unfold se_prim. bi HD y Ey. destruct y as [a r]. apply Ok_inj in HD. injection HD as <- <-. apply read_exact_split in Ey as (-> & Hl). apply bytes_ok_app in Hb as (Hb & _). pose proof (prim_back (PScalar e) a Hb Hl ltac:(discriminate)) as PB. cbn [prim_of] in PB. rewrite PB. cbn [bind]. eauto.
    - unfold sd_prim in HD. unfold se_prim. bi HD y Ey. destruct y as [a r]. apply Ok_inj in HD. injection HD as <- <-. apply read_exact_split in Ey as (-> & Hl). apply bytes_ok_app in Hb as (Hb & _). pose proof (prim_back PF32 a Hb Hl ltac:(discriminate)) as PB. cbn [prim_of] in PB. rewrite PB. cbn [bind]. eauto.
    - unfold sd_prim in HD. unfold se_prim. bi HD y Ey. destruct y as [a r]. apply Ok_inj in HD. injection HD as <- <-. apply read_exact_split in Ey as (-> & Hl). apply bytes_ok_app in Hb as (Hb & _). pose proof (prim_back PF64 a Hb Hl ltac:(discriminate)) as PB. cbn [prim_of] in PB. rewrite PB. cbn [bind]. eauto.
    - unfold sd_repr in HD. unfold se_repr. bi HD y Ey. destruct y as [a r]. bi HD x Ex. apply Ok_inj in HD. injection HD as <- <-. apply read_exact_split in Ey as (-> & Hl). apply bytes_ok_app in Hb as (Hb & _).
      rewrite (repr_back (RpEnum d) a x); [cbn; eauto|apply nodup_NoDup; assumption|assumption|assumption|assumption].
    - unfold sd_repr in HD. unfold se_repr. bi HD y Ey. destruct y as [a r]. bi HD x Ex. apply Ok_inj in HD. injection HD as <- <-. apply read_exact_split in Ey as (-> & Hl). apply bytes_ok_app in Hb as (Hb & _).
      rewrite (repr_back (RpBits d) a x); [cbn; eauto|exact I|assumption|assumption|assumption].
    - unfold se_foreign. destruct (Hw _ _ _ _ _ Ht Hb HD) as (b & -> & ->). cbn. eauto.
    - bi HD vs Evs. assert (E : mapM (ev en) args = Ok vs).
      { clear HD. revert vs Evs. induction args as [|e args IH]; cbn [mapM]; intros vs HD; [assumption|]. bi HD y Ey. bi HD ys Eys. apply Ok_inj in HD. subst vs. rewrite (ev_mono _ _ _ _ Hs Ey), (IH _ Eys). reflexivity. }
      rewrite E. cbn [bind]. unfold foreign_of in Ht. destruct (p n) as [[? t ?]|]; [destruct t|]; try (eapply Hrec; eassumption).
      unfold se_foreign. destruct (Hw _ _ _ _ _ Ht Hb HD) as (b & -> & ->). cbn. eauto.
    - destruct l as [e| |e]; [| |discriminate Ht].
      + apply andb_true_iff in Ht as (T1 & T2). pose proof (kind_spec t T1 T2) as K. cbn [sd_arr se_arr] in *. bi HD nv Env. rewrite (ev_mono _ _ _ _ Hs Env). cbn [bind].
        assert (Bound : forall n (bs : list (list Z)) r k, (0 < k)%nat -> l0 = concat bs ++ r -> List.length bs = n -> Forall (fun b => List.length b = k) bs -> Z.of_nat n mod 2 ^ 64 = Z.of_nat n).
        { intros n bs r k Hk El Hn HF. apply Z.mod_small. assert (n <= List.length l0)%nat; [|lia]. rewrite El, app_length, (concat_len k) by assumption. subst n. nia. }
        destruct (kind_of (resolved p rf t)) as [pr|d|] eqn:Ek.
        * assert (H' : (let! n := arr_size (w_chk w) (prim_size pr) nv in read_prims pr n l0) = Ok (v, rest)) by (destruct pr; [congruence| | |]; exact HD). clear HD. bi H' m En. apply (arr_size_nat _ _ _ (prim_size_pos pr)) in En as (s & n & -> & ->).
          destruct (prims_back _ _ _ _ _ K Hb H') as (vs & bs & -> & Hn & Em & El).
          assert (Q : (Z.of_nat n mod 2 ^ 64 =? Z.of_nat (List.length vs)) = true).
          { rewrite Hn. apply Z.eqb_eq. eapply (Bound n bs rest (prim_size pr)); [apply prim_size_pos|assumption|rewrite (mapM_len _ _ _ Em); assumption|].
            eapply mapM_forall; [exact Em|]. intros x y _ Ey. destruct (prim_rt _ _ _ Ey) as (L & _). exact L. }
          destruct pr; [congruence| | |]; cbn [arr_of vint of_some bind]; rewrite Q, Em; cbn; eauto.
        * bi HD m En. apply (arr_size_nat _ _ _ (size_pos _)) in En as (s & n & -> & ->). destruct (reprs_back _ _ _ _ _ K Hb HD) as (vs & bs & -> & Hn & Em & El).
          assert (Q : (Z.of_nat n mod 2 ^ 64 =? Z.of_nat (List.length vs)) = true).
          { rewrite Hn. apply Z.eqb_eq. eapply (Bound n bs rest (size (es_scalar (repr_rep d)))); [apply size_pos|assumption|rewrite (mapM_len _ _ _ Em); assumption|].
            eapply mapM_forall; [exact Em|]. intros x y _ Ey. destruct d; cbn [repr_enc repr_rep] in *; destruct x; try discriminate Ey.
            - destruct (enumdef_dec d d0); [|discriminate]. destruct (to_repr _ x); [|discriminate]. destruct (in_range _ _); [|discriminate]. apply Ok_inj in Ey. subst y. apply scalar_bytes_length.
            - destruct (bitsdef_dec d d0); [|discriminate]. destruct (in_range _ _); [|discriminate]. apply Ok_inj in Ey. subst y. apply scalar_bytes_length. }
          cbn [arr_of vint of_some bind]. rewrite Q, Em. cbn. eauto.
        * bi HD n En. apply len_of_nat in En as (s & ->). bi HD y Ey. destruct y as [vs r]. apply Ok_inj in HD. injection HD as <- <-.
          assert (X : forall l v rest, bytes_ok l -> sd_type ed t l = Ok (v, rest) -> True) by auto. clear X.
          assert (TB : forall m l vs r, (exists pre, l0 = pre ++ l) -> bytes_ok l -> sd_times (sd_type ed t) m l = Ok (vs, r) -> List.length vs = m /\ exists bs, se_times (se_type en t) m vs = Ok (combine bs vs) /\ List.length bs = m /\ l = concat bs ++ r).
          { induction m as [|m IHm]; cbn [sd_times]; intros l vs1 r1 Hpre Hb1 E.
            - apply Ok_inj in E. injection E as <- <-. split; [reflexivity|]. exists []. auto.
            - bi E y Ey1. destruct y as [v1 l1]. bi E z Ez. destruct z as [vs' l2]. apply Ok_inj in E. injection E as <- <-.
              destruct (IHt T2 l v1 l1 Hb1) as (b & Eb & ->); [|assumption|].
              { destruct Hpre as (pre & Hpre). rewrite Hpre, app_length in Hlen. lia. }
              apply bytes_ok_app in Hb1 as (_ & Hb1). destruct (IHm _ _ _ ltac:(destruct Hpre as (pre & Hpre); exists (pre ++ b); rewrite <- app_assoc; exact Hpre) Hb1 Ez) as (L & bs & E1 & E2 & ->). split; [cbn; congruence|]. exists (b :: bs). cbn [se_times]. rewrite Eb. cbn [bind]. rewrite E1. cbn.
              split; [reflexivity|]. split; [congruence|]. rewrite app_assoc. reflexivity. }
          destruct (TB n l0 vs r (ex_intro _ [] eq_refl) Hb Ey) as (L & bs & E1 & E2 & El).
          cbn [vint of_some bind]. rewrite Nat2Z.id. assert (A : (if (n =? 0)%nat then Ok (E := ioerr) vs else arr_of (VArr vs)) = Ok vs) by (destruct (_ =? _)%nat; reflexivity). rewrite A. cbn [bind]. rewrite E1. cbn [bind refuse].
          rewrite combine_snd, combine_fst by congruence. eauto.
      + apply andb_true_iff in Ht as (T1 & T2). apply andb_true_iff in T1 as (T1 & T3). pose proof (kind_spec t T1 T2) as K. cbn [sd_arr se_arr] in *.
        destruct (kind_of (resolved p rf t)) as [pr|d|] eqn:Ek.
        * cbn [byte_wide] in T3. destruct pr as [| | |e]; try discriminate T3. apply Nat.eqb_eq in T3. apply Ok_inj in HD. injection HD as <- <-.
          unfold sd_chunks. cbn [prim_size]. rewrite T3, Nat.div_1_r.
          destruct (chunks_spec (List.length l0) 1 l0 ltac:(lia)) as (C1 & C2 & C3). specialize (C3 Hb). cbn [arr_of bind].
          assert (M : mapM (prim_enc (PScalar e)) (map (prim_of (PScalar e)) (chunks (List.length l0) 1 l0)) = Ok (chunks (List.length l0) 1 l0)).
          { clear C1. revert C2 C3. generalize (chunks (List.length l0) 1 l0). induction l as [|c cs IH]; intros F1 F2; cbn [mapM map]; [reflexivity|].
            inversion F1; inversion F2; subst. rewrite prim_back; [|assumption|cbn [prim_size]; congruence|assumption]. cbn [bind]. rewrite IH by assumption. reflexivity. }
          rewrite M. cbn [bind]. rewrite C1. exists l0. rewrite app_nil_r. auto.
        * cbn [byte_wide] in T3. apply Nat.eqb_eq in T3. bi HD vs Evs. apply Ok_inj in HD. injection HD as <- <-. unfold sd_chunks in Evs. rewrite T3, Nat.div_1_r in Evs.
          destruct (chunks_spec (List.length l0) 1 l0 ltac:(lia)) as (C1 & C2 & C3). specialize (C3 Hb). cbn [arr_of bind].
          rewrite (mapM_reprs d (chunks (List.length l0) 1 l0) K ltac:(rewrite T3; exact C2) C3 _ Evs). cbn [bind refuse]. rewrite C1. exists l0. rewrite app_nil_r. auto.
        * bi HD vs Evs. apply Ok_inj in HD. injection HD as <- <-.
          assert (TB : forall fuel l vs, (List.length l <= List.length l0)%nat -> bytes_ok l -> sd_all (sd_type ed t) fuel l = Ok vs -> exists bs, mapM (se_type en t) vs = Ok (combine bs vs) /\ List.length bs = List.length vs /\ l = concat bs).
          { induction fuel as [|fuel IHf]; cbn [sd_all]; intros l vs1 Hl1 Hb1 E; [discriminate E|]. destruct l as [|z l]; [apply Ok_inj in E; subst; exists []; auto|].
            bi E y Ey. destruct y as [v1 l1]. destruct (Nat.ltb_spec (List.length l1) (List.length (z :: l))); [|discriminate E]. bi E vs' Ez. apply Ok_inj in E. subst vs1. destruct (IHt T2 (z :: l) v1 l1 Hb1) as (b & Eb & Hl); [lia|assumption|].
            rewrite Hl in Hb1. apply bytes_ok_app in Hb1 as (_ & Hb1). destruct (IHf l1 vs' ltac:(lia) Hb1 Ez) as (bs & E1 & E2 & ->). exists (b :: bs). cbn [mapM]. rewrite Eb. cbn [bind]. rewrite E1. cbn. auto. }
          destruct (TB _ _ _ (le_n _) Hb Evs) as (bs & E1 & E2 & El). cbn [arr_of bind]. rewrite E1. cbn [bind refuse]. rewrite combine_snd, combine_fst by congruence. exists l0. rewrite app_nil_r. split; [congruence|reflexivity].
    - discriminate HD.
  Qed.

  Definition agree (vs en : env) : Prop := forall n x, In (n, x) vs -> lookup n en = Some x.
  Lemma agree_sub vs en : agree vs en -> sub vs en.
  Proof. intros H n x Hx. apply H. apply lookup_some_in. exact Hx. Qed.
  Lemma agree_app a b en : agree (a ++ b) en <-> agree a en /\ agree b en.
  Proof. unfold agree. split; [intros H; split; intros; apply H, in_app_iff; auto|]. intros (A & B) n x Hx. apply in_app_iff in Hx as [|]; auto. Qed.
  Lemma agree_rev a en : agree a en -> agree (rev a) en.
  Proof. intros H n x Hx. apply H, in_rev, Hx. Qed.
  Definition plain_item (f : fattr * ty) : bool :=
    match fa_xs (fst f) with [] => true | _ => false end && negb (is_some (fa_calc (fst f))) && negb (fa_pad (fst f))
    && negb (is_cont (snd f) && is_some (fa_cond (fst f))) && one_rep p rf ct cf (snd f).

  Notation sd_item := (sd_item w p rf inputs rec).
  Notation se_item := (se_item w p rf inputs None erec).
  Notation sd_complex := (sd_complex w p rf inputs rec).
  Notation se_complex := (se_complex w p rf inputs None erec).

  Variable en : env.
  Definition cback (t : ty) : Prop := forall a ed l vs rest, fa_pad a = false -> one_rep p rf ct cf t = true -> bytes_ok l -> Z.of_nat (List.length l) < 2 ^ 64 ->
    agree ed en -> agree vs en \/ is_cont t = false -> sd_complex a t ed l = Ok (vs, rest) ->
    (is_cont t = false -> exists v, vs = [(fa_name a, v)]) /\
    exists b, l = b ++ rest /\ forall v cond, (is_cont t = true -> cond = false) -> (is_cont t = false -> vs = [(fa_name a, v)]) -> se_complex a t en v cond false = Ok (b, vs).

  Lemma items_back items : Forall (fun f => cback (snd f)) items -> forallb plain_item items = true ->
    forall ed l vs rest, bytes_ok l -> Z.of_nat (List.length l) < 2 ^ 64 -> agree ed en -> agree vs en -> sd_items w inputs (map sd_item items) ed l = Ok (vs, rest) ->
    exists b, l = b ++ rest /\ forall out vs0, se_items w inputs None (map se_item items) en false out vs0 None = Ok (out ++ b, vs0 ++ vs).
  Proof.
    induction items as [|[a t] items IH]; intros HF HP ed l vs rest Hb Hl Hed Hvs H; cbn [map sd_items] in H.
    - apply Ok_inj in H. injection H as <- <-. exists []. split; [reflexivity|]. intros. cbn. rewrite !app_nil_r. reflexivity.
    - inversion HF as [|? ? HF1 HF2]; subst. cbn [forallb] in HP. apply andb_true_iff in HP as (HP1 & HP2). bi H y Ey. destruct y as [vs1 l1]. bi H z Ez. destruct z as [vs2 l2]. apply Ok_inj in H. injection H as <- <-.
      apply agree_app in Hvs as (Hvs1 & Hvs2). unfold plain_item in HP1. cbn [fst snd] in HP1. rewrite !andb_true_iff in HP1. destruct HP1 as ((((P1 & P2) & P3) & P4) & P5).
      destruct (fa_xs a) as [|] eqn:Ex; [|discriminate P1]. apply negb_true_iff in P2, P3. destruct (fa_calc a) eqn:Ec; [discriminate P2|]. cbn [snd] in HF1.
      assert (Q : exists b, l = b ++ l1 /\ forall v, (is_cont t = false -> lookup (fa_name a) en = Some v) -> exists k, se_field w inputs None (se_item (a, t)) en v false false = Ok (b, (vs1, k))).
      { unfold sd_field, Spec.sd_item in Ey. cbn [fst snd] in Ey. rewrite Ex in Ey. cbn [rev sd_xs] in Ey. unfold se_field, Spec.se_item. cbn [fst snd]. rewrite Ex, Ec, P3. cbn [se_xs]. destruct (fa_cond a) as [e|] eqn:Eco.
        - rewrite P3 in Ey. bi Ey c Ec1. bi Ey bb Ebb. assert (Ct : is_cont t = false) by (destruct (is_cont t); [discriminate P4|reflexivity]).
          rewrite (ev_mono _ _ _ _ (agree_sub _ _ Hed) Ec1). cbn [bind]. rewrite Ebb. cbn [bind]. rewrite Ct. destruct bb.
          + bi Ey q Eqq. destruct q as [vq lq]. apply Ok_inj in Ey. injection Ey as <- <-. destruct (HF1 a ed l vq lq P3 P5 Hb Hl Hed (or_intror Ct) Eqq) as (V & b & El & K). destruct (V Ct) as (v0 & ->).
            exists b. split; [exact El|]. intros v Hv. specialize (Hv eq_refl). cbn [wrap_some map] in Hvs1. assert (lookup (fa_name a) en = Some (VOpt (Some v0))) by (apply Hvs1; left; reflexivity). assert (v = VOpt (Some v0)) as -> by congruence.
            cbn [negb andb is_some unwrap_opt bind]. rewrite (K v0 true); [|congruence|intros _; reflexivity]. cbn. eauto.
          + apply Ok_inj in Ey. injection Ey as <- <-. exists []. split; [reflexivity|]. eauto.
        - destruct (HF1 a ed l vs1 l1 P3 P5 Hb Hl Hed (or_introl Hvs1) Ey) as (V & b & El & K). exists b. split; [exact El|]. intros v Hv. cbn [bind].
          rewrite (K v false); [cbn; eauto|reflexivity|]. intros Ct. destruct (V Ct) as (v0 & ->). rewrite (Hvs1 (fa_name a) v0) in Hv by (left; reflexivity). specialize (Hv Ct). congruence. }
      destruct Q as (b & El & Q). assert (Hb1 : bytes_ok l1) by (rewrite El in Hb; apply bytes_ok_app in Hb as (_ & Hb); exact Hb).
      assert (Hl1 : Z.of_nat (List.length l1) < 2 ^ 64) by (rewrite El, app_length in Hl; lia).
      destruct (IH HF2 HP2 (rev vs1 ++ ed) l1 vs2 l2 Hb1 Hl1) as (b2 & El2 & K2); [apply agree_app; split; [apply agree_rev|]; assumption|assumption|exact Ez|].
      exists (b ++ b2). split; [rewrite El, El2, app_assoc; reflexivity|]. intros out vs0. cbn [map se_items].
      change (se_item (a, t)) with (a, t, se_complex a t) in *. cbv beta iota. rewrite Ec.
      assert (Lk : exists v, (if is_cont t || fa_pad a then Ok (VBool false) else of_some (lookup (fa_name a) en)) = Ok (E := ioerr) v /\ (is_cont t = false -> lookup (fa_name a) en = Some v)).
      { rewrite P3, orb_false_r. destruct (is_cont t) eqn:Ct; [exists (VBool false); split; [reflexivity|discriminate]|].
        assert (exists v, In (fa_name a, v) vs1) as (v & Hv).
        { unfold sd_field, Spec.sd_item in Ey. cbn [fst snd] in Ey. rewrite Ex, P3 in Ey. cbn [rev sd_xs] in Ey. destruct (fa_cond a) as [e|].
          - bi Ey c Ec1. bi Ey bb Ebb. destruct bb.
            + bi Ey q Eqq. destruct q as [vq lq]. apply Ok_inj in Ey. injection Ey as <- <-. destruct (HF1 a ed l vq lq P3 P5 Hb Hl Hed (or_intror Ct) Eqq) as (V & _). destruct (V Ct) as (v0 & ->). exists (VOpt (Some v0)). left. reflexivity.
            + apply Ok_inj in Ey. injection Ey as <- <-. exists (VOpt None). unfold flatten_field. cbn [snd]. rewrite Ct. unfold leaf_names, leaf. cbn [filter fst snd]. rewrite P3, Ct. left. reflexivity.
          - destruct (HF1 a ed l vs1 l1 P3 P5 Hb Hl Hed (or_intror Ct) Ey) as (V & _). destruct (V Ct) as (v0 & ->). exists v0. left. reflexivity. }
        rewrite (Hvs1 _ _ Hv). exists v. auto. }
      destruct Lk as (v & -> & Lk). cbn [bind]. destruct (Q v Lk) as (k & ->). cbn [bind]. rewrite K2, !app_assoc. reflexivity.
  Qed.

  Lemma complex_back t : cback t.
  Proof.
    induction t using ty_ind'; intros a ed l0 vs0 rest Hpd Ht Hb Hl Hed Hvs H0;
      try (cbn [Spec.sd_complex] in H0; rewrite Hpd in H0; bi H0 y Ey; destruct y as [v1 l1]; apply Ok_inj in H0; injection H0 as <- <-;
           destruct (type_back _ _ _ (agree_sub _ _ Hed) Ht _ _ _ Hb Hl Ey) as (b & Eb & El); split; [eauto|]; exists b; split; [exact El|];
           intros v cond _ Hv; specialize (Hv eq_refl); injection Hv as <-; cbn [Spec.se_complex]; rewrite Hpd, Eb; reflexivity).
    cbn [Spec.sd_complex] in H0. rewrite Hpd in H0. cbn [one_rep] in Ht. rewrite !andb_true_iff in Ht. destruct Ht as ((T1 & T2) & T3). destruct len; [discriminate T1|]. destruct tagged; [discriminate T2|]. cbn [sd_limit] in H0.
    destruct Hvs as [Hvs|]; [|discriminate]. split; [discriminate|].
    destruct (items_back items H) with (ed := ed) (l := l0) (vs := vs0) (rest := rest) as (b & El & K); try assumption. exists b. split; [exact El|]. intros v cond Hc _. rewrite (Hc eq_refl). cbn [Spec.se_complex]. rewrite Hpd. cbn [se_limit bind]. apply (K [] []).
  Qed.
End Reenc.

Lemma lookup_nodup (fs : env) n x : NoDup (map fst fs) -> In (n, x) fs -> lookup n fs = Some x.
Proof. intros. apply lookup_in; assumption. Qed.

Section Top.
  Variable w : world.
  Variable p : program.
  Variable rf : nat.
  Variable ct cf : string -> bool.
  Hypothesis Hw : one_rep_world cf w.
  Hypothesis Hchk : w_chk w = true.
  Variable inputs : string -> option val.
  Variable rec : string -> list val -> list Z -> res ioerr (val * list Z).
  Variable erec : string -> list val -> val -> res ioerr (list Z * val).
  Hypothesis Hrec : forall n vs l v rest, ct n = true -> bytes_ok l -> Z.of_nat (List.length l) < 2 ^ 64 -> rec n vs l = Ok (v, rest) -> exists b, erec n vs v = Ok (b, v) /\ l = b ++ rest.
  Notation plain_item := (plain_item p rf ct cf).

  Lemma flat_plain t : one_rep p rf ct cf t = true -> forall f, In f (flatten_ty t) -> fa_calc (fst f) = None /\ fa_pad (fst f) = false /\ leaf f = true.
  Proof.
    induction t using ty_ind'; intros Ht f Hf; try contradiction. cbn [one_rep] in Ht. rewrite !andb_true_iff in Ht. destruct Ht as (_ & Ht). rewrite flatten_ty_cont in Hf.
    induction items as [|[a t] items IH]; [contradiction|]. inversion H as [|? ? H1 H2]; subst. cbn [forallb fst snd] in Ht. rewrite !andb_true_iff in Ht. destruct Ht as (((((T1 & T2) & T3) & T4) & T5) & T6).
    unfold flatten_items in Hf. cbn [flat_map] in Hf. apply in_app_iff in Hf as [Hf|Hf]; [|apply IH; assumption]. unfold flatten_field in Hf. cbn [snd] in Hf. destruct (is_cont t) eqn:Ec.
    - eapply H1; assumption.
    - destruct Hf as [<-|[]]. cbn [fst]. apply negb_true_iff in T2, T3. destruct (fa_calc a); [discriminate T2|]. unfold leaf. cbn [fst snd]. rewrite T3, Ec. auto.
  Qed.
  Lemma calcs_none l : (forall f, In f l -> fa_calc (fst f) = None) -> forall en, se_calcs w inputs l en = Ok en.
  Proof. induction l as [|[a t] l IH]; intros H en; [reflexivity|]. cbn [se_calcs]. pose proof (H (a, t) (or_introl eq_refl)) as E. cbn [fst] in E. rewrite E. apply IH. intros f Hf. apply H. right. assumption. Qed.

  (** The names a container's leaves get are the names of its fields. *)
  Definition names_ok (t : ty) : Prop := forall a ed l vs rest, fa_pad a = false -> one_rep p rf ct cf t = true -> sd_complex w p rf inputs rec a t ed l = Ok (vs, rest) -> map fst vs = leaf_names (flatten_field (a, t)).
  Lemma leaf_names_app a b : leaf_names (a ++ b) = leaf_names a ++ leaf_names b.
  Proof. unfold leaf_names. rewrite filter_app, map_app. reflexivity. Qed.
  Lemma items_names items : Forall (fun f => names_ok (snd f)) items -> forallb plain_item items = true ->
    forall ed l vs rest, sd_items w inputs (map (sd_item w p rf inputs rec) items) ed l = Ok (vs, rest) -> map fst vs = leaf_names (flatten_items items).
  Proof.
    induction items as [|[a t] items IH]; intros HF HP ed l vs rest H; cbn [map sd_items] in H; [apply Ok_inj in H; injection H as <- <-; reflexivity|].
    inversion HF as [|? ? HF1 HF2]; subst. cbn [forallb] in HP. apply andb_true_iff in HP as (HP1 & HP2). bi H y Ey. destruct y as [vs1 l1]. bi H z Ez. destruct z as [vs2 l2]. apply Ok_inj in H. injection H as <- <-.
    rewrite map_app, (IH HF2 HP2 _ _ _ _ Ez). unfold flatten_items at 2. cbn [flat_map]. rewrite leaf_names_app. f_equal.
    unfold Reenc.plain_item in HP1. cbn [fst snd] in *. rewrite !andb_true_iff in HP1. destruct HP1 as ((((P1 & P2) & P3) & P4) & P5). destruct (fa_xs a) as [|] eqn:Ex; [|discriminate P1]. apply negb_true_iff in P3.
    unfold sd_field, sd_item in Ey. cbn [fst snd] in Ey. rewrite Ex, P3 in Ey. cbn [rev sd_xs] in Ey. destruct (fa_cond a) as [e|].
    - bi Ey c Ec1. bi Ey bb Ebb. destruct bb.
      + bi Ey q Eqq. destruct q as [vq lq]. apply Ok_inj in Ey. injection Ey as <- <-. unfold wrap_some. rewrite map_map. cbn [fst]. eapply HF1; eassumption.
      + apply Ok_inj in Ey. injection Ey as <- <-. unfold all_none. rewrite map_map. cbn [fst]. apply map_id.
    - eapply HF1; eassumption.
  Qed.
  Lemma complex_names t : names_ok t.
  Proof.
    induction t using ty_ind'; intros a ed l0 vs0 rest Hpd Ht H0; cbn [sd_complex] in H0; rewrite Hpd in H0;
      try (bi H0 y Ey; destruct y as [v1 l1]; apply Ok_inj in H0; injection H0 as <- <-; unfold flatten_field, leaf_names, leaf; cbn; rewrite Hpd; reflexivity).
    cbn [one_rep] in Ht. rewrite !andb_true_iff in Ht. destruct Ht as ((T1 & T2) & T3). destruct len; [discriminate T1|]. destruct tagged; [discriminate T2|]. cbn [sd_limit] in H0.
    unfold flatten_field. cbn [is_cont snd]. rewrite flatten_ty_cont. eapply items_names; eassumption.
  Qed.

  Lemma struct_back items l vs rest nm : forallb plain_item items = true -> NoDup (leaf_names (flatten_items items)) -> bytes_ok l -> Z.of_nat (List.length l) < 2 ^ 64 ->
    sd_items w inputs (map (sd_item w p rf inputs rec) items) [] l = Ok (vs, rest) -> exists b, se_struct w p rf inputs None erec items (VStruct nm vs) = Ok (b, vs) /\ l = b ++ rest.
  Proof.
    intros HP ND Hb Hl H. assert (Hn : map fst vs = leaf_names (flatten_items items)) by (eapply items_names; [apply Forall_forall; intros; apply complex_names|eassumption|eassumption]).
    assert (FP : forall f, In f (flatten_items items) -> fa_calc (fst f) = None /\ fa_pad (fst f) = false /\ leaf f = true).
    { assert (T : one_rep p rf ct cf (TCont None false items) = true) by (cbn [one_rep is_some negb andb]; exact HP). intros f Hf. apply (flat_plain _ T). rewrite flatten_ty_cont. exact Hf. }
    assert (Hno : NoDup (map fst vs)) by (rewrite Hn; exact ND). unfold se_struct.
    match goal with |- exists b, bind ?X _ = _ /\ _ => assert (R : exists en0, X = Ok en0 /\ agree vs en0) end.
    { destruct (existsb _ (flatten_items items)) eqn:Eex.
      - cbn [fields_of bind]. destruct (refs_valid vs (flatten_items items)) with (en0 := @nil (string * val)) as (en0 & E1 & E2 & E3).
        { intros f Hf _. destruct (FP f Hf) as (_ & _ & Hlf). assert (Hi : In (fa_name (fst f)) (map fst vs)) by (rewrite Hn; unfold leaf_names; apply in_map_iff; exists f; split; [reflexivity|]; apply filter_In; auto).
          apply in_map_iff in Hi as ([n x] & En & Hi). cbn in En. subst n. exists x. apply lookup_nodup; assumption. }
        { intros n x Hx. rewrite lookup_nil in Hx. discriminate. }
        exists en0. split; [exact E1|]. intros n x Hx. apply E3; [apply lookup_nodup; assumption|]. left. assert (Hi : In n (map fst vs)) by (apply in_map_iff; exists (n, x); auto). rewrite Hn in Hi. unfold leaf_names in Hi.
        apply in_map_iff in Hi as (f & A1 & A2). apply filter_In in A2 as (A2 & A3). exists f. destruct (FP f A2) as (B1 & B2 & _). rewrite B1, B2. auto.
      - exists []. split; [reflexivity|]. intros n x Hx. exfalso. assert (Hi : In n (map fst vs)) by (apply in_map_iff; exists (n, x); auto). rewrite Hn in Hi. unfold leaf_names in Hi.
        apply in_map_iff in Hi as (f & A1 & A2). apply filter_In in A2 as (A2 & A3). destruct (FP f A2) as (B1 & B2 & _).
        assert (existsb (fun f => negb (is_some (fa_calc (fst f))) && negb (fa_pad (fst f))) (flatten_items items) = true); [|congruence]. apply existsb_exists. exists f. rewrite B1, B2. auto. }
    destruct R as (en0 & -> & R). cbn [bind]. rewrite calcs_none by (intros f Hf; apply FP; exact Hf). cbn [bind].
    destruct (items_back w p rf ct cf inputs rec erec en0 items) with (ed := @nil (string * val)) (l := l) (vs := vs) (rest := rest) as (b & El & K); try assumption.
    { apply Forall_forall. intros f _. apply complex_back; assumption. }
    { intros n x []. }
    exists b. split; [|exact El]. apply (K [] []).
  Qed.

  Lemma variants_back nm items : forallb (fun f => match fa_xs (fst f) with [] => true | _ => false end && negb (fa_pad (fst f)) && one_rep p rf ct cf (snd f) && nodup (leaf_names (flatten_ty (snd f)))) items = true ->
    forall l v rest, bytes_ok l -> Z.of_nat (List.length l) < 2 ^ 64 -> sd_variants w p rf inputs rec nm items l = Ok (v, rest) -> exists b, se_variants w p rf inputs None erec nm items v = Ok (b, v) /\ l = b ++ rest.
  Proof.
    induction items as [|[a t] items IH]; intros HP l v rest Hb Hl H; [discriminate H|]. cbn [forallb fst snd] in HP. rewrite !andb_true_iff in HP. destruct HP as ((((P1 & P2) & P3) & P4) & P5).
    destruct (fa_xs a) as [|] eqn:Ex; [|discriminate P1]. apply negb_true_iff in P2. cbn [sd_variants] in H. cbn [se_variants]. rewrite Ex in *. cbn [rev sd_xs se_xs] in *. bi H c Ec. rewrite Ec. cbn [bind]. destruct c; [|apply IH; assumption].
    bi H y Ey. destruct y as [vs l1]. destruct (is_cont t) eqn:Ct.
    - apply Ok_inj in H. injection H as <- <-. rewrite !String.eqb_refl. destruct t as [| | | | | | | | |len tg sb]; try discriminate Ct.
      cbn [sd_complex] in Ey. rewrite P2 in Ey. cbn [one_rep] in P3. rewrite !andb_true_iff in P3. destruct P3 as ((T1 & T2) & T3). destruct len; [discriminate T1|]. destruct tg; [discriminate T2|]. cbn [sd_limit] in Ey.
      rewrite flatten_ty_cont in P4. apply nodup_NoDup in P4.
      assert (Hn : map fst vs = leaf_names (flatten_items sb)) by (eapply items_names; [apply Forall_forall; intros; apply complex_names|exact T3|exact Ey]).
      assert (M : mapM (fun n => let! x := of_some (lookup n vs) in Ok (n, x)) (leaf_names (flatten_items sb)) = Ok vs).
      { rewrite <- Hn. assert (Hno : NoDup (map fst vs)) by (rewrite Hn; exact P4). clear -Hno.
        assert (X : forall l, incl l vs -> mapM (fun n => let! x := of_some (lookup n vs) in Ok (n, x)) (map fst l) = Ok l).
        { induction l as [|[n x] l IH]; intros Hi; [reflexivity|]. cbn [map mapM fst]. rewrite (lookup_nodup vs n x Hno) by (apply Hi; left; reflexivity). cbn [of_some bind]. rewrite IH; [reflexivity|]. intros z Hz. apply Hi. right. exact Hz. }
        apply X, incl_refl. }
      rewrite M. cbn [bind].
      assert (FP : forall f, In f (flatten_items sb) -> fa_calc (fst f) = None).
      { assert (T : one_rep p rf ct cf (TCont None false sb) = true) by (cbn [one_rep is_some negb andb]; exact T3). intros f Hf. apply (flat_plain _ T). rewrite flatten_ty_cont. exact Hf. }
      rewrite calcs_none by exact FP. cbn [bind].
      destruct (items_back w p rf ct cf inputs rec erec (rev vs) sb) with (ed := @nil (string * val)) (l := l) (vs := vs) (rest := l1) as (b & El & K); try assumption.
      { apply Forall_forall. intros f _. apply complex_back; assumption. }
      { intros n x []. }
      { intros n x Hx. apply lookup_nodup; [rewrite map_rev; apply NoDup_rev; rewrite Hn; exact P4|apply in_rev in Hx; exact Hx]. }
      change (map (fun f => Spec.se_item w p rf inputs None erec f) sb) with (map (Spec.se_item w p rf inputs None erec) sb). rewrite (K [] []). cbn. eauto.
    - destruct (complex_back w p rf ct cf Hw Hchk inputs rec erec Hrec [] t a [] l vs l1 P2 P3 Hb Hl) as (V & b & El & K); [intros n x []|right; exact Ct|exact Ey|].
      destruct (V Ct) as (v0 & ->). apply Ok_inj in H. injection H as <- <-. rewrite !String.eqb_refl, (K v0 false); [|congruence|reflexivity]. cbn. eauto.
  Qed.

  Lemma top_back d l v rest : one_rep_decl p rf ct cf d = true -> bytes_ok l -> Z.of_nat (List.length l) < 2 ^ 64 -> sd_top w p rf inputs rec d l = Ok (v, rest) -> exists b, se_top w p rf inputs None erec d v = Ok (b, v) /\ l = b ++ rest.
  Proof.
    intros Hd Hb Hl H. unfold one_rep_decl in Hd. apply andb_true_iff in Hd as (D1 & D2). destruct (fa_xs (d_attr d)) as [|] eqn:Ex; [|discriminate D1]. unfold sd_top in H. unfold se_top. rewrite Ex in *. cbn [rev sd_xs se_xs] in *.
    assert (T : forall t l v rest, one_rep p rf ct cf t = true -> bytes_ok l -> Z.of_nat (List.length l) < 2 ^ 64 -> sd_type w p rf inputs rec [] t l = Ok (v, rest) -> exists b, se_type w p rf inputs None erec [] t v = Ok (b, v) /\ l = b ++ rest).
    { intros. eapply type_back; try eassumption. intros ? ? ?; assumption. }
    destruct (d_ty d) as [e| | | |de|db|f|n args|el lc|len tg items] eqn:Et; try discriminate D2;
      try (bi H y Ey; destruct y as [x r]; apply Ok_inj in H; injection H as <- <-; destruct (T _ _ _ _ D2 Hb Hl Ey) as (b & Eb & El); rewrite Eb; cbn; eauto; fail); try (eapply T; eassumption).
    destruct len as [|]; [destruct tg; discriminate D2|]. destruct tg; cbn [sd_limit se_limit] in *; [eapply variants_back; eassumption|].
    apply andb_true_iff in D2 as (D2 & D3). bi H y Ey. destruct y as [vs r]. apply Ok_inj in H. injection H as <- <-. cbn [one_rep is_some negb andb] in D2.
    destruct (struct_back items l vs r (fa_name (d_attr d)) D2 (nodup_NoDup _ D3) Hb Hl Ey) as (b & Eb & El). rewrite Eb. cbn. eauto.
  Qed.
End Top.

Theorem sdecode_sencode w p rf ct cf : one_rep_world cf w -> w_chk w = true -> one_rep_program p rf ct cf -> forall fuel n args l v rest, ct n = true -> bytes_ok l -> Z.of_nat (List.length l) < 2 ^ 64 ->
  sdecode w p rf fuel n args l = Ok (v, rest) -> exists b, sencode w p rf None fuel n args v = Ok (b, v) /\ l = b ++ rest.
Proof.
  intros Hw Hchk Hp. induction fuel as [|fuel IH]; intros n args l v rest Hn Hb Hl H; [discriminate H|]. cbn [sdecode] in H. cbn [sencode]. bi H d Ed. bi H inp Ei. rewrite Ed. cbn [bind]. rewrite Ei. cbn [bind].
  eapply top_back; try eassumption. apply (Hp n); [|exact Hn]. destruct (p n); [apply Ok_inj in Ed; congruence|discriminate Ed].
Qed.
