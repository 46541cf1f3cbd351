(** Soundness of the check in Safe.v. *)
From Verif Require Import ScalarFacts ConstIntFacts PreludeFacts DecRef RtWf EnumBitsFacts RoundTrip CoderFacts Data DataFacts Safe.
Open Scope string_scope. Open Scope Z_scope. Open Scope list_scope.

Fixpoint rexpr_ind' (P : rexpr -> Prop)
  (HBin : forall op l r, P l -> P r -> P (RBin op l r)) (HUn : forall op e, P e -> P (RUn op e)) (HAs : forall e t, P e -> P (RAs e t))
  (HRepr : forall e, P e -> P (RRepr e)) (HRaw : forall e, P e -> P (RRaw e)) (HIndex : forall a i, P (RIndex a i)) (HVar : forall d n, P (RVariant d n))
  (HFlag : forall d n, P (RFlag d n)) (HLit : forall c, P (RLit c)) (HName : forall n, P (RName n)) (HInput : forall n, P (RInput n)) (HField : forall n, P (RField n))
  (HBytes : forall b, P (RBytes b)) (HIf : forall c a b, P c -> P a -> P b -> P (RIf c a b)) (HBl : forall b, P (RBoolLit b))
  (HCall : forall f args, Forall P args -> P (RCall f args)) (HMem : forall e f, P e -> P (RMember e f)) (HInv : P RInvalid) (r : rexpr) : P r :=
  let rec := rexpr_ind' P HBin HUn HAs HRepr HRaw HIndex HVar HFlag HLit HName HInput HField HBytes HIf HBl HCall HMem HInv in
  match r with
  | RBin op l r => HBin op l r (rec l) (rec r) | RUn op e => HUn op e (rec e) | RAs e t => HAs e t (rec e) | RRepr e => HRepr e (rec e) | RRaw e => HRaw e (rec e)
  | RIndex a i => HIndex a i | RVariant d n => HVar d n | RFlag d n => HFlag d n | RLit c => HLit c | RName n => HName n | RInput n => HInput n | RField n => HField n
  | RBytes b => HBytes b | RIf c a b => HIf c a b (rec c) (rec a) (rec b) | RBoolLit b => HBl b
  | RCall f args => HCall f args ((fix go l : Forall P l := match l with [] => Forall_nil _ | x :: l => Forall_cons _ (rec x) (go l) end) args)
  | RMember e f => HMem e f (rec e) | RInvalid => HInv
  end.

Section Values.
  Variable p : program.
  Variable F : string -> val -> Prop.
  Variable sg : sig.
  Notation has := (has p F). Notation has_fields := (has_fields p F).
  Definition vhas (a : aty) (v : val) : Prop :=
    match a with
    | AInt s lo hi => exists z, v = VInt s z /\ in_range s z = true /\ lo <= z <= hi
    | ATy t => has t v
    end.
  (** What the signature promises of the values of foreign types. *)
  Hypothesis Hint : forall f s v, sg_int sg f = Some s -> F f v -> exists z, v = VInt s z /\ in_range s z = true.
  Hypothesis Hlen : forall f h v, sg_len sg f = Some h -> F f v -> exists z, vlen v = Ok (VInt U64 z) /\ 0 <= z <= h.

  Lemma afull_has s z : in_range s z = true -> vhas (afull s) (VInt s z).
  Proof. intros H. exists z. split; [reflexivity|]. split; [exact H|]. apply in_range_iff in H. exact H. Qed.
  Lemma aty_of_has t v : has t v -> vhas (aty_of sg t) v.
  Proof.
    intros H. destruct t; cbn [aty_of]; try exact H.
    - inversion H; subst. apply afull_has. assumption.
    - destruct (sg_int sg f) as [s|] eqn:E; [|exact H]. inversion H; subst. destruct (Hint _ _ _ E H1) as (z & -> & R). apply afull_has. exact R.
  Qed.
  Lemma ale_has a b v : ale a b = true -> vhas a v -> vhas b v.
  Proof.
    destruct a as [s lo hi|t], b as [s' lo' hi'|t']; cbn [ale vhas]; try discriminate.
    - rewrite !andb_true_iff, !Z.leb_le. intros ((E & H1) & H2) (z & -> & R & B). apply scalar_eqb_eq in E. subst s'. exists z. split; [reflexivity|]. split; [exact R|lia].
    - destruct (rty_dec t t') as [->|]; [auto|discriminate].
  Qed.
  Lemma ales_has a : forall b vs, ales a b = true -> Forall2 vhas a vs -> Forall2 vhas b vs.
  Proof. induction a as [|x a IH]; intros [|y b] vs E H; cbn [ales] in E; try discriminate; inversion H; subst; constructor; apply andb_true_iff in E as (E1 & E2); [eapply ale_has; eassumption|apply IH; assumption]. Qed.
  Lemma ajoin_has a b c v : ajoin a b = Some c -> vhas a v \/ vhas b v -> vhas c v.
  Proof.
    destruct a as [s lo hi|t], b as [s' lo' hi'|t']; cbn [ajoin]; try discriminate.
    - destruct (scalar_eqb s s') eqn:E; [|discriminate]. apply scalar_eqb_eq in E. subst s'. intros H. injection H as <-. intros [(z & -> & R & B)|(z & -> & R & B)]; exists z; (split; [reflexivity|]; split; [exact R|lia]).
    - destruct (rty_dec t t') as [->|]; [|discriminate]. intros H. injection H as <-. intros [H|H]; exact H.
  Qed.
  Lemma enum_has t d v : enum_of p t = Some d -> has t v -> exists x z, v = VEnum d x /\ to_repr (en_items d) x = Some z /\ in_range (es_scalar (en_rep d)) z = true.
  Proof.
    unfold enum_of. destruct t; try discriminate. destruct (p n) as [dd|] eqn:Ep; [|discriminate]. destruct (d_ty dd) eqn:Et; try discriminate. intros H. injection H as ->.
    intros H. inversion H; subst; rewrite Ep in *; match goal with [E : Some _ = Some _ |- _] => injection E as <- end; unfold data_of in *; rewrite Et in *; try discriminate.
    match goal with [E : Some (GEnum _) = Some _ |- _] => injection E as -> end. eauto 6.
  Qed.
  Lemma bits_has t d v : bits_of p t = Some d -> has t v -> exists z, v = VBits d z /\ in_range (es_scalar (bf_rep d)) z = true.
  Proof.
    unfold bits_of. destruct t; try discriminate. destruct (p n) as [dd|] eqn:Ep; [|discriminate]. destruct (d_ty dd) eqn:Et; try discriminate. intros H. injection H as ->.
    intros H. inversion H; subst; rewrite Ep in *; match goal with [E : Some _ = Some _ |- _] => injection E as <- end; unfold data_of in *; rewrite Et in *; try discriminate.
    match goal with [E : Some (GBits _) = Some _ |- _] => injection E as -> end. eauto 6.
  Qed.
  Lemma eqable_eqb t : eqable p t = true -> forall a b, has t a -> has t b -> exists r, val_eqb a b = Some r.
  Proof.
    induction t as [s| | | |t IH|t IH|f|n]; intros E a b Ha Hb; try discriminate E.
    - inversion Ha; inversion Hb; subst. cbn. rewrite scalar_eqb_refl. eauto.
    - inversion Ha; inversion Hb; subst. cbn. eauto.
    - inversion Ha as [| | | |t0 la Ia La| | | | | | | | |]; inversion Hb as [| | | |t1 lb Ib Lb| | | | | | | | |]; subst. cbn [eqable] in E. clear Ha Hb La Lb. cbn [val_eqb].
      revert lb Ib. induction la as [|x la IHl]; intros lb Ib; [destruct lb; eauto|]. destruct lb as [|y lb]; [eauto|].
      destruct (IH E x y (Ia _ (or_introl eq_refl)) (Ib _ (or_introl eq_refl))) as (r & ->). destruct r; [|eauto]. apply IHl; intros u Hu; [apply Ia|apply Ib]; right; exact Hu.
    - cbn [eqable] in E. destruct (enum_of p (RTNamed n)) as [d|] eqn:Ee.
      + destruct (enum_has _ _ _ Ee Ha) as (x & z & -> & _). destruct (enum_has _ _ _ Ee Hb) as (y & z' & -> & _). cbn. rewrite String.eqb_refl. eauto.
      + destruct (bits_of p (RTNamed n)) as [d|] eqn:Eb; [|discriminate]. destruct (bits_has _ _ _ Eb Ha) as (x & -> & _). destruct (bits_has _ _ _ Eb Hb) as (y & -> & _). cbn. rewrite String.eqb_refl. eauto.
  Qed.

  Lemma biop_vint f s a b v : f s a b = Ok v -> vint2 (biop_map f) (VInt s a) (VInt s b) = Ok (VInt s v).
  Proof. intros H. unfold vint2, biop_map. cbn [ci_ty ci_val]. rewrite scalar_eqb_refl, H. reflexivity. Qed.
  Lemma arith_ok chk s x : in_range s x = true -> arith chk s x = Ok x.
  Proof. unfold arith. intros ->. reflexivity. Qed.
  Lemma fits_mid s lo hi a x : afits s lo hi = Some a -> lo <= x <= hi -> in_range s x = true /\ a = AInt s lo hi.
  Proof. unfold afits. destruct (in_range s lo) eqn:E1; [|discriminate]. destruct (in_range s hi) eqn:E2; [|discriminate]. intros H B. injection H as <-. split; [exact (in_range_mono s lo x hi E1 E2 B)|reflexivity]. Qed.
  Lemma shift_ok chk s k lo hi : (0 <=? lo) && (hi <? bits s) = true -> lo <= k <= hi -> shift_amount chk s k = Ok k.
  Proof. rewrite andb_true_iff, Z.leb_le, Z.ltb_lt. intros (A & B) C. unfold shift_amount. destruct (Z.leb_spec 0 k); [|lia]. destruct (Z.ltb_spec k (bits s)); [|lia]. reflexivity. Qed.

  Lemma abin_ok chk op a b c x y : abin p sg op a b = Some c -> vhas a x -> vhas b y ->
    match op with
    | OOr | OAnd => (exists u, x = VBool u) /\ (exists u, y = VBool u) /\ c = abool
    | _ => exists v, rbin chk op x y = Ok v /\ vhas c v
    end.
  Proof.
    assert (B : forall u, vhas abool (VBool u)) by (intros u; constructor).
    assert (BB : forall a v, is_abool a = true -> vhas a v -> exists u, v = VBool u).
    { intros [|t] v H Hv; [discriminate|]. destruct t; try discriminate. inversion Hv; subst. eauto. }
    destruct op; cbn [abin]; intros E Hx Hy; try discriminate E;
      try (destruct (is_abool a) eqn:Ia; [|discriminate E]; destruct (is_abool b) eqn:Ib; [|discriminate E]; injection E as <-; split; [exact (BB a x Ia Hx)|]; split; [exact (BB b y Ib Hy)|reflexivity]).
    5: { destruct a as [s l1 h1|t], b as [s' l2 h2|t']; try discriminate E.
      + destruct (scalar_eqb s s') eqn:Es; [|discriminate]. apply scalar_eqb_eq in Es. subst s'. injection E as <-. destruct Hx as (i & -> & _). destruct Hy as (j & -> & _). cbn. rewrite scalar_eqb_refl. eexists. split; [reflexivity|apply B].
      + destruct (rty_dec t t') as [<-|]; [|discriminate]. destruct (eqable p t) eqn:Eq; [|discriminate]. injection E as <-. destruct (eqable_eqb t Eq x y Hx Hy) as (r & G). cbn [rbin]. rewrite G. eexists. split; [reflexivity|apply B]. }
    5: { destruct a as [s l1 h1|t], b as [s' l2 h2|t']; try discriminate E.
      + destruct (scalar_eqb s s') eqn:Es; [|discriminate]. apply scalar_eqb_eq in Es. subst s'. injection E as <-. destruct Hx as (i & -> & _). destruct Hy as (j & -> & _). cbn. rewrite scalar_eqb_refl. eexists. split; [reflexivity|apply B].
      + destruct (rty_dec t t') as [<-|]; [|discriminate]. destruct (eqable p t) eqn:Eq; [|discriminate]. injection E as <-. destruct (eqable_eqb t Eq x y Hx Hy) as (r & G). cbn [rbin]. rewrite G. eexists. split; [reflexivity|apply B]. }
    1-14: destruct a as [s l1 h1|]; [|discriminate E]; destruct b as [s' l2 h2|]; [|discriminate E]; destruct (scalar_eqb s s') eqn:Es; [|discriminate E]; apply scalar_eqb_eq in Es; subst s';
      destruct Hx as (i & -> & Ri & Bi); destruct Hy as (j & -> & Rj & Bj).
    1-4: injection E as <-; cbn [rbin vcmp]; rewrite scalar_eqb_refl; eexists; split; [reflexivity|apply B].
    - injection E as <-. cbn [rbin]. unfold ci_bitor. erewrite biop_vint by reflexivity. eexists. split; [reflexivity|]. apply afull_has. apply bitwise_range; assumption.
    - cbn [rbin]. unfold ci_bitand. erewrite biop_vint by reflexivity. eexists. split; [reflexivity|]. assert (R : in_range s (Z.land i j) = true) by (apply bitwise_range; assumption).
      assert (L : forall u v, 0 <= u -> 0 <= Z.land v u <= u).
      { intros u v Hu. split; [apply Z.land_nonneg; right; exact Hu|]. rewrite Z.land_comm.
        assert (Hp : Z.ldiff u v = u - Z.land u v). { assert (G : Z.ldiff u v + Z.land u v = Z.lxor (Z.ldiff u v) (Z.land u v)) by (apply Z.add_nocarry_lxor; apply Z.bits_inj'; intros n Hn; rewrite Z.land_spec, Z.ldiff_spec, Z.land_spec, Z.bits_0; destruct (Z.testbit u n), (Z.testbit v n); reflexivity).
          replace (Z.lxor (Z.ldiff u v) (Z.land u v)) with u in G by (apply Z.bits_inj'; intros n Hn; rewrite Z.lxor_spec, Z.ldiff_spec, Z.land_spec; destruct (Z.testbit u n), (Z.testbit v n); reflexivity). lia. }
        assert (0 <= Z.ldiff u v) by (apply Z.ldiff_nonneg; left; exact Hu). lia. }
      destruct (Z.leb_spec 0 l2) as [C|_]; [injection E as <-; exists (Z.land i j); split; [reflexivity|]; split; [exact R|]; specialize (L j i ltac:(lia)); lia|].
      destruct (Z.leb_spec 0 l1) as [C|_]; injection E as <-; [|apply afull_has; exact R]. exists (Z.land i j). split; [reflexivity|]. split; [exact R|]. specialize (L i j ltac:(lia)). rewrite Z.land_comm in L. lia.
    - injection E as <-. cbn [rbin]. unfold ci_bitxor. erewrite biop_vint by reflexivity. eexists. split; [reflexivity|]. apply afull_has. apply bitwise_range; assumption.
    - destruct ((0 <=? l2) && (h2 <? bits s)) eqn:C; [|discriminate]. injection E as <-. cbn [rbin]. unfold ci_shr. erewrite biop_vint by (unfold rust_shr; rewrite (shift_ok _ _ _ _ _ C Bj); reflexivity).
      eexists. split; [reflexivity|]. apply andb_true_iff in C as (C1 & C2). apply Z.leb_le in C1. assert (R : in_range s (Z.shiftr i j) = true) by (apply shiftr_range; [lia|assumption]).
      destruct (Z.leb_spec 0 l1); [|apply afull_has; exact R]. exists (Z.shiftr i j). split; [reflexivity|]. split; [exact R|]. rewrite Z.shiftr_div_pow2 by lia. assert (0 < 2 ^ j) by (apply Z.pow_pos_nonneg; lia).
      split; [apply Z.div_pos; lia|]. apply Z.le_trans with i; [|lia]. apply Z.div_le_upper_bound; nia.
    - destruct ((0 <=? l2) && (h2 <? bits s)) eqn:C; [|discriminate]. injection E as <-. cbn [rbin]. unfold ci_shl. erewrite biop_vint by (unfold rust_shl; rewrite (shift_ok _ _ _ _ _ C Bj); reflexivity).
      eexists. split; [reflexivity|]. apply afull_has, wrap_in_range.
    - destruct (fits_mid _ _ _ _ (i + j) E ltac:(lia)) as (R & ->). cbn [rbin]. unfold ci_add. erewrite biop_vint by (apply arith_ok; exact R). eexists. split; [reflexivity|]. exists (i + j). split; [reflexivity|]. split; [exact R|lia].
    - destruct (fits_mid _ _ _ _ (i - j) E ltac:(lia)) as (R & ->). cbn [rbin]. unfold ci_sub. erewrite biop_vint by (apply arith_ok; exact R). eexists. split; [reflexivity|]. exists (i - j). split; [reflexivity|]. split; [exact R|lia].
    - destruct ((0 <=? l1) && (0 <=? l2)) eqn:C; [|discriminate]. rewrite andb_true_iff, !Z.leb_le in C. assert (M : l1 * l2 <= i * j <= h1 * h2) by (split; apply Z.mul_le_mono_nonneg; lia).
      destruct (fits_mid _ _ _ _ (i * j) E M) as (R & ->). cbn [rbin]. unfold ci_mul. erewrite biop_vint by (apply arith_ok; exact R). eexists. split; [reflexivity|]. exists (i * j). split; [reflexivity|]. split; [exact R|lia].
    - destruct ((0 <=? l1) && (1 <=? l2)) eqn:C; [|discriminate]. rewrite andb_true_iff, !Z.leb_le in C. injection E as <-. assert (Q : 0 <= Z.quot i j <= i). { rewrite Z.quot_div_nonneg by lia. split; [apply Z.div_pos; lia|]. apply Z.div_le_upper_bound; nia. }
      assert (R : in_range s (Z.quot i j) = true) by (eapply in_range_mono; [apply in_range_0|exact Ri|lia]). cbn [rbin]. unfold ci_div. erewrite biop_vint by (unfold rust_div; destruct (Z.eqb_spec j 0); [lia|]; rewrite R; reflexivity).
      eexists. split; [reflexivity|]. exists (Z.quot i j). split; [reflexivity|]. split; [exact R|lia].
    - destruct ((0 <=? l1) && (1 <=? l2)) eqn:C; [|discriminate]. rewrite andb_true_iff, !Z.leb_le in C. injection E as <-. assert (Q : 0 <= Z.quot i j <= i). { rewrite Z.quot_div_nonneg by lia. split; [apply Z.div_pos; lia|]. apply Z.div_le_upper_bound; nia. }
      assert (R : in_range s (Z.quot i j) = true) by (eapply in_range_mono; [apply in_range_0|exact Ri|lia]). cbn [rbin]. unfold ci_rem. erewrite biop_vint by (unfold rust_rem; destruct (Z.eqb_spec j 0); [lia|]; rewrite R; reflexivity).
      eexists. split; [reflexivity|]. exists (Z.rem i j). split; [reflexivity|]. split; [apply rem_range; [lia|assumption]|]. pose proof (Z.rem_bound_pos i j ltac:(lia) ltac:(lia)). rewrite Z.rem_mod_nonneg in * by lia. pose proof (Z.mod_le i j ltac:(lia) ltac:(lia)). lia.
    - destruct a as [|t]; [discriminate|]. destruct t; try discriminate. destruct (ale b (aty_of sg t)) eqn:El; [|discriminate]. injection E as <-. inversion Hx; subst; cbn [rbin].
      + eexists. split; [reflexivity|]. eapply ale_has; eassumption.
      + eexists. split; [reflexivity|]. apply aty_of_has. assumption.
  Qed.
  Lemma aun_ok chk op a c x : aun op a = Some c -> vhas a x -> exists v, run chk op x = Ok v /\ vhas c v.
  Proof.
    destruct op, a as [s lo hi|t]; cbn [aun]; intros E Hx; try discriminate E; try (destruct t; discriminate E).
    - destruct (is_signed s) eqn:Sg; [|discriminate]. destruct Hx as (z & -> & R & B). destruct (fits_mid _ _ _ _ (- z) E ltac:(lia)) as (R' & ->). cbn [run ci_neg ci_ty ci_val]. unfold ci_neg. cbn [ci_ty ci_val]. rewrite Sg, arith_ok by exact R'.
      eexists. split; [reflexivity|]. exists (- z). split; [reflexivity|]. split; [exact R'|lia].
    - injection E as <-. destruct Hx as (z & -> & R & B). cbn. eexists. split; [reflexivity|]. apply afull_has, wrap_in_range.
    - destruct t; try discriminate. injection E as <-. inversion Hx; subst. cbn. eexists. split; [reflexivity|]. constructor.
    - injection E as <-. destruct Hx as (z & -> & R & B). cbn. eexists. split; [reflexivity|]. apply afull_has, wrap_in_range.
    - destruct t; try discriminate. injection E as <-. inversion Hx; subst. cbn. eexists. split; [reflexivity|]. constructor.
  Qed.
  Lemma aas_ok a t c x : aas a t = Some c -> vhas a x -> exists v, ras x t = Ok v /\ vhas c v.
  Proof.
    destruct a as [s lo hi|r]; cbn [aas]; intros E Hx.
    - destruct t as [e| | | | | | |]; try discriminate. injection E as <-. destruct Hx as (z & -> & R & B). cbn [ras]. eexists. split; [reflexivity|].
      destruct (in_range (es_scalar e) lo) eqn:R1; cbn [andb]; [|apply afull_has, wrap_in_range]. destruct (in_range (es_scalar e) hi) eqn:R2; [|apply afull_has, wrap_in_range].
      assert (R3 : in_range (es_scalar e) z = true) by exact (in_range_mono _ lo z hi R1 R2 B). rewrite wrap_id by exact R3. exists z. auto.
    - destruct r; try discriminate. inversion Hx; subst. destruct t as [e| | | | | | |]; try discriminate; injection E as <-; cbn [ras]; eexists; (split; [reflexivity|]); [|constructor].
      exists (Z.b2z b). split; [reflexivity|]. split; [destruct b; [destruct (es_scalar e); reflexivity|apply in_range_0]|destruct b; cbn; lia].
  Qed.
  Lemma size_bound s : (1 <= size s <= 16)%nat. Proof. destruct s; cbn; lia. Qed.
  Lemma u64_small z : 0 <= z < 2 ^ 64 -> in_range U64 z = true.
  Proof. intros H. apply in_range_iff. cbn. lia. Qed.
  Lemma alen_ok a c x : alen p sg a = Some c -> vhas a x -> exists v, vlen x = Ok v /\ vhas c v.
  Proof.
    assert (K : forall z lo hi, lo <= z <= hi -> 0 <= z < 2 ^ 64 -> exists v, Ok (E := rterr) (VInt U64 z) = Ok v /\ vhas (AInt U64 lo hi) v).
    { intros z lo hi H1 H2. eexists. split; [reflexivity|]. exists z. split; [reflexivity|]. split; [apply u64_small; exact H2|exact H1]. }
    destruct a as [s lo hi|t]; cbn [alen]; intros E Hx.
    - injection E as <-. destruct Hx as (z & -> & _). pose proof (size_bound s). cbn [vlen]. apply K; lia.
    - destruct t; try discriminate E.
      + injection E as <-. inversion Hx; subst. cbn [vlen]. apply K; lia.
      + injection E as <-. inversion Hx; subst. cbn [vlen]. apply K; lia.
      + injection E as <-. inversion Hx; subst. cbn [vlen]. apply K; lia.
      + injection E as <-. inversion Hx; subst. cbn [vlen]. apply K; lia.
      + destruct (sg_len sg f) as [h|] eqn:El; [|discriminate]. destruct (in_range U64 h) eqn:R; [|discriminate]. injection E as <-. inversion Hx; subst. destruct (Hlen _ _ _ El H0) as (z & -> & B). apply in_range_iff in R. cbn in R. apply K; lia.
      + destruct (enum_of p (RTNamed n)) as [d|] eqn:Ee.
        * injection E as <-. destruct (enum_has _ _ _ Ee Hx) as (y & z & -> & _). cbn [vlen]. pose proof (size_bound (es_scalar (en_rep d))). apply K; lia.
        * destruct (bits_of p (RTNamed n)) as [d|] eqn:Eb; [|discriminate]. injection E as <-. destruct (bits_has _ _ _ Eb Hx) as (y & -> & _). cbn [vlen]. pose proof (size_bound (es_scalar (bf_rep d))). apply K; lia.
  Qed.

  Variable chk : bool.
  Variable ufn : string -> list val -> res rterr val.
  Variable fenv : list (string * rty).
  Variable ienv : list (string * aty).
  Variables fields inputs : string -> option val.
  Hypothesis Hfe : forall n t, lookup n fenv = Some t -> exists v, fields n = Some v /\ has t v.
  Hypothesis Hie : forall n a, lookup n ienv = Some a -> exists v, inputs n = Some v /\ vhas a v.

  Lemma bits_fn_range v : in_range U8 (bits_fn v) = true. Proof. apply wrap_in_range. Qed.
  Lemma rsafe_ok r : forall a, rsafe p sg fenv ienv r = Some a -> exists v, reval chk ufn fields inputs r = Ok v /\ vhas a v.
  Proof.
    induction r using rexpr_ind'; intros a0 E; cbn [rsafe] in E; try discriminate E.
    - destruct (rsafe p sg fenv ienv r1) as [x|]; [|discriminate]. destruct (rsafe p sg fenv ienv r2) as [y|]; [|discriminate].
      destruct (IHr1 _ eq_refl) as (u & Eu & Hu). destruct (IHr2 _ eq_refl) as (v & Ev & Hv). pose proof (abin_ok chk op x y a0 u v E Hu Hv) as G.
      destruct op; cbn [reval]; rewrite Eu; cbn [bind]; try (rewrite Ev; cbn [bind]; exact G).
      + destruct G as ((b & ->) & (b' & ->) & ->). destruct b; [eexists; split; [reflexivity|constructor]|]. rewrite Ev. cbn [bind]. eexists; split; [reflexivity|constructor].
      + destruct G as ((b & ->) & (b' & ->) & ->). destruct b; [|eexists; split; [reflexivity|constructor]]. rewrite Ev. cbn [bind]. eexists; split; [reflexivity|constructor].
    - destruct (rsafe p sg fenv ienv r) as [x|]; [|discriminate]. destruct (IHr _ eq_refl) as (u & Eu & Hu). cbn [reval]. rewrite Eu. cbn [bind]. eapply aun_ok; eassumption.
    - destruct (rsafe p sg fenv ienv r) as [x|]; [|discriminate]. destruct (IHr _ eq_refl) as (u & Eu & Hu). cbn [reval]. rewrite Eu. cbn [bind]. eapply aas_ok; eassumption.
    - destruct (rsafe p sg fenv ienv r) as [[|t]|]; try discriminate. destruct (IHr _ eq_refl) as (u & Eu & Hu). cbn [reval]. rewrite Eu. cbn [bind]. destruct (enum_of p t) as [d|] eqn:Ed; [|discriminate]. cbn in E. injection E as <-.
      destruct (enum_has _ _ _ Ed Hu) as (x & z & -> & T & R). rewrite T. eexists. split; [reflexivity|]. apply afull_has. exact R.
    - destruct (rsafe p sg fenv ienv r) as [[|t]|]; try discriminate. destruct (IHr _ eq_refl) as (u & Eu & Hu). cbn [reval]. rewrite Eu. cbn [bind]. destruct (bits_of p t) as [d|] eqn:Ed; [|discriminate]. cbn in E. injection E as <-.
      destruct (bits_has _ _ _ Ed Hu) as (z & -> & R). eexists. split; [reflexivity|]. apply afull_has. exact R.
    - destruct (enum_of p (RTNamed (en_name d))) as [d'|] eqn:Ed; [|discriminate]. destruct (enumdef_dec d d') as [<-|]; [|discriminate]. destruct (to_repr (en_items d) (VNamed n)) as [z|] eqn:T; [|discriminate]. destruct (in_range _ z) eqn:R; [|discriminate]. injection E as <-.
      cbn [reval]. eexists. split; [reflexivity|]. unfold enum_of in Ed. destruct (p (en_name d)) as [dd|] eqn:Ep; [|discriminate]. destruct (d_ty dd) eqn:Et; try discriminate. injection Ed as ->.
      eapply HEnum; [exact Ep|unfold data_of; rewrite Et; reflexivity|exact T|exact R].
    - destruct (fits_mid _ _ _ _ (ci_val c) E ltac:(lia)) as (R & ->). cbn [reval]. eexists. split; [reflexivity|]. exists (ci_val c). split; [reflexivity|]. split; [exact R|lia].
    - destruct (Hie _ _ E) as (v & Ev & Hv). cbn [reval]. rewrite Ev. eauto.
    - destruct (lookup n fenv) as [t|] eqn:El; [|discriminate]. cbn in E. injection E as <-. destruct (Hfe _ _ El) as (v & Ev & Hv). cbn [reval]. rewrite Ev. eexists. split; [reflexivity|]. apply aty_of_has. exact Hv.
    - destruct (forallb (in_range U8) b && _) eqn:C; [|discriminate]. injection E as <-. apply andb_true_iff in C as (C1 & C2). apply Z.ltb_lt in C2. cbn [reval]. eexists. split; [reflexivity|]. unfold vbytes.
      constructor; [|rewrite map_length; exact C2]. intros v Hv. apply in_map_iff in Hv as (z & <- & Hz). rewrite forallb_forall in C1. constructor. auto.
    - destruct (rsafe p sg fenv ienv r1) as [x|]; [|discriminate]. destruct (rsafe p sg fenv ienv r2) as [y|]; [|discriminate]. destruct (rsafe p sg fenv ienv r3) as [z|]; [|discriminate]. destruct (is_abool x) eqn:Ib; [|discriminate].
      destruct (IHr1 _ eq_refl) as (u & Eu & Hu). destruct (IHr2 _ eq_refl) as (v & Ev & Hv). destruct (IHr3 _ eq_refl) as (v' & Ev' & Hv'). cbn [reval]. rewrite Eu. cbn [bind].
      assert (exists c, u = VBool c) as (c & ->) by (destruct x as [|t]; try discriminate; destruct t; try discriminate; inversion Hu; eauto).
      destruct c; [rewrite Ev|rewrite Ev']; eexists; (split; [reflexivity|]); eapply ajoin_has; eauto.
    - injection E as <-. cbn [reval]. eexists. split; [reflexivity|constructor].
    - destruct args as [|x [|y [|]]]; try discriminate E.
      + inversion H as [|? ? Hx _]; subst. destruct (rsafe p sg fenv ienv x) as [a|]; [|discriminate]. destruct (Hx _ eq_refl) as (u & Eu & Hu). cbn [reval]. rewrite Eu. cbn [bind]. unfold call_fn.
        destruct (String.eqb f "len"); [eapply alen_ok; eassumption|]. destruct (String.eqb_spec f "bits") as [->|]; [|discriminate]. cbn -[bits_fn wrap].
        destruct a as [s lo hi|]; [|discriminate]. destruct s; try discriminate. injection E as <-. destruct Hu as (z & -> & _). eexists. split; [reflexivity|]. apply afull_has, bits_fn_range.
      + inversion H as [|? ? Hx H']; subst. inversion H' as [|? ? Hy _]; subst. destruct (rsafe p sg fenv ienv x) as [[s l1 h1|]|]; try discriminate E; destruct s; try discriminate E.
        destruct (rsafe p sg fenv ienv y) as [[s l2 h2|]|]; try discriminate E; destruct s; try discriminate E. destruct (Hx _ eq_refl) as (u & Eu & (i & -> & Ri & Bi)). destruct (Hy _ eq_refl) as (v & Ev & (j & -> & Rj & Bj)).
        destruct (String.eqb_spec f "pad") as [->|]; [|discriminate]. cbn [andb] in E. destruct (Z.leb_spec 1 l1); [|discriminate]. destruct (Z.leb_spec 0 l2); [|discriminate]. injection E as <-.
        cbn [reval]. rewrite Eu. cbn [bind]. rewrite Ev. cbn [bind]. unfold call_fn. cbn [String.eqb Ascii.eqb Bool.eqb]. unfold pad_fn, ores_map. destruct (Z.eqb_spec i 0); [lia|].
        pose proof (Z.rem_bound_pos j i ltac:(lia) ltac:(lia)). apply in_range_iff in Ri. cbn in Ri.
        destruct (Z.eqb_spec (Z.rem j i) 0); cbn [bind]; eexists; (split; [reflexivity|]); eexists; (split; [reflexivity|]); (split; [apply u64_small; lia|lia]).
    - destruct (rsafe p sg fenv ienv r) as [[|t]|]; try discriminate. destruct (IHr _ eq_refl) as (u & Eu & Hu). cbn [reval]. rewrite Eu. cbn [bind]. destruct (bits_of p t) as [d|] eqn:Ed; [|discriminate].
      destruct (lookup f (bf_items d)) as [z'|] eqn:El; [|discriminate]. cbn in E. injection E as <-. destruct (bits_has _ _ _ Ed Hu) as (z & -> & R). rewrite El. eexists. split; [reflexivity|constructor].
  Qed.
End Values.
