(** Programs that pass the check of EncSafe.v: their encoders return. *)
From Verif Require Import ScalarFacts ConstIntFacts DecRef RtWf EnumBitsFacts RoundTrip CoderFacts Data DataFacts Safe SafeFacts SafeDec EncSafe.
Open Scope string_scope. Open Scope Z_scope. Open Scope list_scope.

(** How deep structs are nested in a value. *)
Fixpoint height (v : val) : nat :=
  match v with
  | VArr l => list_max (map height l)
  | VOpt (Some v) => height v
  | VTup v | VVariant _ _ v => S (height v)
  | VStruct _ fs | VVariantS _ _ fs => S (list_max (map (fun x => height (snd x)) fs))
  | _ => 0%nat
  end.
Lemma max_in n l : In n l -> (n <= list_max l)%nat.
Proof. induction l as [|x l IH]; cbn [In list_max fold_right]; [tauto|]. intros [->|H]; [lia|]. apply IH in H. unfold list_max in H. lia. Qed.
Lemma height_in v l : In v l -> (height v <= height (VArr l))%nat.
Proof. intros H. cbn [height]. apply max_in. apply in_map. exact H. Qed.
Lemma height_field n v fs : lookup n fs = Some v -> (height v <= list_max (map (fun x : string * val => height (snd x)) fs))%nat.
Proof. intros H. apply lookup_some_in in H. apply max_in. change (height v) with ((fun x : string * val => height (snd x)) (n, v)). apply in_map with (f := fun x : string * val => height (snd x)). exact H. Qed.

Section Enc.
  Variable w : world.
  Variable p : program.
  Variable rf : nat.
  Variable F : string -> val -> Prop.
  Variable sg : sig.
  Variable par : string -> option (list aty).
  Hypothesis Hint : forall f s v, sg_int sg f = Some s -> F f v -> exists z, v = VInt s z /\ in_range s z = true.
  Hypothesis Hlen : forall f h v, sg_len sg f = Some h -> F f v -> exists z, vlen v = Ok (VInt U64 z) /\ 0 <= z <= h.
  Hypothesis Hall : forall f s z, sg_int sg f = Some s -> in_range s z = true -> F f (VInt s z).
  Hypothesis Hef : forall f ats vs v, sg_f sg f ats = true -> Forall2 (vhas p F) ats vs -> F f v -> okerr (w_fenc w f vs v).
  Hypothesis Hex : forall x ats vs b, sg_x sg x ats = true -> Forall2 (vhas p F) ats vs -> okerr (w_xenc w x vs b).
  Hypothesis Hpar : forall n ps, par n = Some ps -> exists d, p n = Some d /\ foreign_of p n = None /\ decl_esafe p rf (w_fty w) sg par n ps d = true.
  Notation has := (has p F). Notation has_fields := (has_fields p F). Notation vhas := (vhas p F).
  Notation se k := (sencode w p rf None k).

  Lemma has_vhas_of a v : vhas a v -> has (rty_of a) v.
  Proof. destruct a as [s lo hi|t]; cbn [rty_of SafeFacts.vhas]; [|auto]. intros (z & -> & R & _). constructor. exact R. Qed.
  Lemma flat_height t : flat p t = true -> forall v, has t v -> height v = 0%nat.
  Proof.
    induction t; intros E v H; cbn [flat] in E; try discriminate; try (inversion H; subst; reflexivity).
    - inversion H; subst. cbn [height]. assert (G : forall u, In u l -> height u = 0%nat) by (intros; apply IHt; auto). clear - G. induction l as [|u l IH]; [reflexivity|]. change (Nat.max (height u) (list_max (map height l)) = 0%nat). rewrite IH; [|intros; apply G; right; assumption]. rewrite (G u (or_introl eq_refl)). reflexivity.
    - inversion H; subst; [reflexivity|]. cbn [height]. auto.
    - destruct (enum_of p (RTNamed n)) as [d|] eqn:Ee; [destruct (enum_has p F _ _ _ Ee H) as (x & z & -> & _); reflexivity|]. destruct (bits_of p (RTNamed n)) as [d|] eqn:Eb; [destruct (bits_has p F _ _ _ Eb H) as (x & -> & _); reflexivity|discriminate].
  Qed.
  Lemma takes_has t r v : takes p sg t r = true -> has r v -> exists r', type_ref p t = Some r' /\ has r' v.
  Proof.
    unfold takes. destruct (type_ref p t) as [r'|]; [|discriminate]. intros E H. exists r'. split; [reflexivity|]. apply orb_true_iff in E as [E|E]; [destruct (rty_dec r r') as [->|]; [exact H|discriminate]|].
    destruct r'; try discriminate. destruct r; try discriminate. destruct (sg_int sg f) as [s'|] eqn:Es; [|discriminate]. apply scalar_eqb_eq in E. subst s'. inversion H; subst. constructor. eapply Hall; eassumption.
  Qed.
  Lemma prim_ok pr v : has (match pr with PBool => RTBool | PF32 => RTF32 | PF64 => RTF64 | PScalar e => RTInt (es_scalar e) end) v -> exists b, prim_enc pr v = Ok b.
  Proof. destruct pr as [| | |e]; intros H; inversion H; subst; cbn [prim_enc]; try (match goal with E : in_range _ _ = true |- _ => rewrite E end); try rewrite scalar_eqb_refl; cbn [andb]; eauto. Qed.
  Lemma repr_ok n d r v : p n = Some d -> d_ty d = match r with RpEnum e => TEnum e | RpBits e => TBits e end -> has (RTNamed n) v -> exists b, repr_enc r v = Ok b.
  Proof.
    intros Ep Et H. destruct r as [e|e].
    - destruct (enum_has p F (RTNamed n) e v) as (x & z & -> & T & R); [unfold enum_of; rewrite Ep, Et; reflexivity|exact H|]. cbn [repr_enc]. destruct (enumdef_dec e e); [|congruence]. rewrite T, R. eauto.
    - destruct (bits_has p F (RTNamed n) e v) as (z & -> & R); [unfold bits_of; rewrite Ep, Et; reflexivity|exact H|]. cbn [repr_enc]. destruct (bitsdef_dec e e); [|congruence]. rewrite R. eauto.
  Qed.
  Lemma ebulk_prim el pr : bulk_ok p rf el = true -> kind_of (resolved p rf el) = KPrim pr -> kind_of el = KPrim pr.
  Proof.
    clear. unfold bulk_ok. intros B K. rewrite K in B. destruct (kind_of el) as [pr'| |] eqn:E; try discriminate. rewrite <- K, <- E. destruct el; try discriminate E; destruct rf; reflexivity.
  Qed.
  Lemma ebulk_repr el r : bulk_ok p rf el = true -> kind_of (resolved p rf el) = KRepr r ->
    exists n args d, el = TRef n args /\ p n = Some d /\ d_ty d = match r with RpEnum e => TEnum e | RpBits e => TBits e end.
  Proof.
    clear. unfold bulk_ok. intros B K. rewrite K in B. destruct el; try discriminate. destruct (p n) as [d|] eqn:Ep; [|discriminate]. exists n, args, d. split; [reflexivity|]. split; [exact Ep|].
    destruct rf as [|k]; cbn [resolved] in K; [discriminate|]. rewrite Ep in K. destruct (d_ty d) eqn:Et; try discriminate; destruct k; cbn in K; injection K as <-; reflexivity.
  Qed.
  Lemma mapM_all {A B} (f : A -> res ioerr B) l : (forall x, In x l -> exists y, f x = Ok y) -> exists ys, mapM f l = Ok ys.
  Proof. intros H. induction l as [|x l IH]; cbn [mapM]; [eauto|]. destruct (H x (or_introl eq_refl)) as (y & ->). destruct IH as (ys & ->); [intros; apply H; right; assumption|]. cbn [bind]. eauto. Qed.
  Lemma mapM_halts {A B} (f : nat -> A -> res ioerr B) l : (forall x, In x l -> halts (fun k => f k x)) -> halts (fun k => mapM (f k) l).
  Proof.
    intros H. induction l as [|x l IH]; cbn [mapM]; [apply halts_const; exact I|]. apply halts_bind; [apply H; left; reflexivity|]. intros y _. apply halts_bind; [apply IH; intros; apply H; right; assumption|]. intros ys _. apply halts_const. exact I.
  Qed.
  Lemma se_times_halts (f : nat -> val -> res ioerr (list Z * val)) : forall n l, (n <= List.length l)%nat -> (forall x, In x l -> halts (fun k => f k x)) -> halts (fun k => se_times (f k) n l).
  Proof.
    induction n as [|n IH]; intros l Hn H; cbn [se_times]; [apply halts_const; exact I|]. destruct l as [|x l]; [cbn in Hn; lia|]. apply halts_bind; [apply H; left; reflexivity|]. intros y _.
    apply halts_bind; [apply IH; [cbn in Hn; lia|intros; apply H; right; assumption]|]. intros ys _. apply halts_const. exact I.
  Qed.

  Section Body.
    Variable H : nat.
    Hypothesis Hpos : (0 < H)%nat.
    Variable inp : string -> option val.
    Variable ienv : list (string * aty).
    Hypothesis Hie : forall n a, lookup n ienv = Some a -> exists v, inp n = Some v /\ vhas a v.
    Hypothesis Hrec : forall n ps vs v, par n = Some ps -> Forall2 vhas ps vs -> has (RTNamed n) v -> (height v < H)%nat -> halts (fun k => se k n vs v).
    Notation esafe st := (esafe p (w_fty w) sg (sc_ty st) ienv).

    (** The names in scope have values of their types, and counts are right. *)
    Definition types_ok (ts : list (string * rty)) (en : env) : Prop := forall n t, lookup n ts = Some t -> exists v, lookup n en = Some v /\ has t v /\ (height v < H)%nat.
    Definition count_ok (en : env) (c : string * string) : Prop :=
      exists s z vs, lookup (fst c) en = Some (VInt s z) /\ lookup (snd c) en = Some (VArr vs) /\ 0 <= z <= Z.of_nat (List.length vs) /\ (wide s = true -> z = Z.of_nat (List.length vs)).
    Definition inv (st : escope) (en : env) : Prop := types_ok (sc_ty st) en /\ Forall (count_ok en) (sc_len st).
    Lemma inv0 en : inv scope0 en. Proof. split; [intros n t E; discriminate E|constructor]. Qed.
    Lemma counts_push n v en l : Forall (count_ok en) l -> Forall (count_ok ((n, v) :: en)) (filter (fun c => negb (String.eqb (fst c) n) && negb (String.eqb (snd c) n)) l).
    Proof.
      intros G. apply Forall_forall. intros c Hc. apply filter_In in Hc as (Hc & E). apply andb_true_iff in E as (E1 & E2). rewrite Forall_forall in G. destruct (G _ Hc) as (s & z & vs & L1 & L2 & B).
      exists s, z, vs. rewrite !lookup_cons. rewrite (String.eqb_sym n (fst c)), (String.eqb_sym n (snd c)). destruct (String.eqb (fst c) n); [discriminate|]. destruct (String.eqb (snd c) n); [discriminate|]. auto.
    Qed.
    Lemma inv_push n r v st en : inv st en -> has r v -> (height v < H)%nat -> inv (esc_push n r st) ((n, v) :: en).
    Proof.
      intros (T & C) Hv L. split; [|apply counts_push; exact C]. intros x t E. cbn [esc_push sc_ty] in E. rewrite lookup_cons in E. rewrite lookup_cons. destruct (String.eqb n x); [apply Some_inj in E; subst t; eauto|]. apply T. exact E.
    Qed.
    Lemma inv_hide n v st en : inv st en -> inv (esc_hide n st) ((n, v) :: en).
    Proof.
      intros (T & C). split; [|apply counts_push; exact C]. intros x t E. cbn [esc_hide sc_ty] in E. rewrite lookup_cons.
      assert (G : String.eqb n x = false /\ lookup x (sc_ty st) = Some t).
      { clear - E. induction (sc_ty st) as [|[y u] l IH]; [discriminate|]. cbn [filter fst] in E. rewrite (String.eqb_sym y n) in E. rewrite lookup_cons. destruct (String.eqb_spec n y) as [->|Ny]; cbn [negb] in E.
        - destruct (IH E) as (E1 & E2). split; [exact E1|]. rewrite E1. exact E2.
        - rewrite lookup_cons in E. destruct (String.eqb_spec y x) as [->|]; [|exact (IH E)]. split; [|exact E]. destruct (String.eqb_spec n x); congruence. }
      destruct G as (-> & G). apply T. exact G.
    Qed.
    Lemma inv_count n d st en : inv st en -> count_ok en (n, d) -> inv (esc_count n d st) en.
    Proof. intros (T & C) Hc. split; [exact T|]. constructor; assumption. Qed.

    Lemma eev_ok st en e a : esafe st e = Some a -> inv st en -> exists v, ev w inp en e = Ok v /\ vhas a v.
    Proof.
      intros E (T & _). unfold ev, eval. eapply (rsafe_ok p F sg Hint Hlen (w_chk w) (w_ufn w) (sc_ty st) ienv); [|exact Hie|exact E].
      intros n t El. destruct (T _ _ El) as (v & L & Hv & _). eauto.
    Qed.
    Lemma eevs_ok st en l : inv st en -> forall ats, esafes p (w_fty w) sg (sc_ty st) ienv l = Some ats -> exists vs, mapM (ev w inp en) l = Ok vs /\ Forall2 vhas ats vs.
    Proof.
      intros I. induction l as [|e l IH]; intros ats E; cbn [Safe.esafes] in E; [injection E as <-; exists []; split; [reflexivity|constructor]|].
      destruct (Safe.esafe p (w_fty w) sg (sc_ty st) ienv e) as [a|] eqn:Ea; [|discriminate]. destruct (Safe.esafes p (w_fty w) sg (sc_ty st) ienv l) as [bs|]; [|discriminate]. injection E as <-. destruct (eev_ok _ _ _ _ Ea I) as (v & Ev & Hv). destruct (IH _ eq_refl) as (vs & Evs & Hvs).
      exists (v :: vs). cbn [mapM]. rewrite Ev. cbn [bind]. rewrite Evs. split; [reflexivity|constructor; assumption].
    Qed.
    Lemma ebsafe st en o : bsafe p (w_fty w) sg (sc_ty st) ienv o = true -> inv st en -> match o with Some e => exists b, ev w inp en e = Ok (VBool b) | None => True end.
    Proof.
      unfold bsafe. destruct o as [e|]; [|auto]. destruct (Safe.esafe p (w_fty w) sg (sc_ty st) ienv e) as [a|] eqn:Ea; [|discriminate]. intros B I. destruct (eev_ok _ _ _ _ Ea I) as (v & Ev & Hv). destruct a as [|t]; [discriminate|]. destruct t; try discriminate. inversion Hv; subst. eauto.
    Qed.
    Lemma small_ok st en e : small (esafe st e) = true -> inv st en -> exists v n, ev w inp en e = Ok v /\ len_of v = Ok n.
    Proof.
      unfold small. destruct (Safe.esafe p (w_fty w) sg (sc_ty st) ienv e) as [a|] eqn:Ea; [|discriminate]. destruct a as [s lo hi|]; [|discriminate]. rewrite andb_true_iff, Z.leb_le, Z.ltb_lt. intros B I.
      destruct (eev_ok _ _ _ _ Ea I) as (v & Ev & (z & -> & _ & Bz)). destruct (len_safe s z ltac:(lia)) as (n & En). eauto.
    Qed.

    (** A reference to a count. *)
    Lemma wrap_le s z : 0 <= z -> wrap s z <= z.
    Proof. intros Hz. unfold wrap. pose proof (bits_pos s). assert (0 < 2 ^ bits s) by (apply Z.pow_pos_nonneg; lia). pose proof (Z.mod_le z (2 ^ bits s) Hz ltac:(lia)). cbn zeta. destruct (_ && _); lia. Qed.
    Lemma wide_wrap s z : wide s = true -> 0 <= z < 2 ^ 63 -> wrap s z = z.
    Proof. unfold wide. rewrite Z.leb_le. intros W B. apply wrap_id. apply in_range_iff. assert (min_of s <= 0) by (destruct s; vm_compute; discriminate). lia. Qed.
    Lemma count_ref_ok st en e n ex d vs : count_ref (emit (w_fty w) e) = Some (n, ex) -> counted st n d = true -> inv st en -> lookup d en = Some (VArr vs) -> Z.of_nat (List.length vs) < 2 ^ 63 ->
      exists s z, ev w inp en e = Ok (VInt s z) /\ z <= Z.of_nat (List.length vs) /\ (ex && match lookup n (sc_ty st) with Some (RTInt s) => wide s | _ => false end = true -> z = Z.of_nat (List.length vs)).
    Proof.
      intros E Ec (T & C) Ld Lv. unfold counted in Ec. apply existsb_exists in Ec as ((n' & d') & Hc & Eq). cbn [fst snd] in Eq. apply andb_true_iff in Eq as (Eq1 & Eq2). apply String.eqb_eq in Eq1, Eq2. subst n' d'.
      rewrite Forall_forall in C. destruct (C _ Hc) as (s & z & us & L1 & L2 & B & W). cbn [fst snd] in L1, L2. assert (us = vs) by congruence. subst us.
      assert (Q : match lookup n (sc_ty st) with Some (RTInt s) => wide s | _ => false end = true -> z = Z.of_nat (List.length vs)).
      { destruct (lookup n (sc_ty st)) as [t|] eqn:Et; [|discriminate]. destruct t as [s'| | | | | | |]; try discriminate. destruct (T _ _ Et) as (v & Lv' & Hv & _). rewrite L1 in Lv'. injection Lv' as <-. inversion Hv; subst. exact W. }
      unfold ev, eval. destruct (emit (w_fty w) e); cbn [count_ref] in E; try discriminate.
      - match goal with |- context [RAs ?r ?t] => destruct r; try discriminate; destruct t; try discriminate end. injection E as -> <-. cbn [reval]. rewrite L1. cbn [bind ras]. exists (es_scalar e0), (wrap (es_scalar e0) z). split; [reflexivity|].
        split; [pose proof (wrap_le (es_scalar e0) z ltac:(lia)); lia|]. rewrite andb_true_iff. intros (X1 & X2). apply Q in X2. rewrite (wide_wrap _ _ X1); [exact X2|lia].
      - injection E as -> <-. cbn [reval]. rewrite L1. exists s, z. split; [reflexivity|]. split; [lia|exact Q].
    Qed.

    (** *** Types *)
    Lemma refs_bytes st en e : inv st en -> match esafe st e with Some (ATy t) => if rty_dec t (RTVec (RTInt U8)) then true else false | _ => false end = true ->
      exists l bs, ev w inp en e = Ok (VArr l) /\ mapM (prim_enc (PScalar u8be)) l = Ok bs.
    Proof.
      intros I E. destruct (Safe.esafe p (w_fty w) sg (sc_ty st) ienv e) as [a|] eqn:Ea; [|discriminate]. destruct a as [|t]; [discriminate|]. destruct (rty_dec t (RTVec (RTInt U8))) as [->|]; [|discriminate].
      destruct (eev_ok _ _ _ _ Ea I) as (v & Ev & Hv). cbn [SafeFacts.vhas] in Hv. inversion Hv; subst. destruct (mapM_all (prim_enc (PScalar u8be)) l) as (bs & Eb); [intros x Hx; apply prim_ok; cbn; auto|]. eauto.
    Qed.
    Lemma type_ehalts t : forall st own en r v, type_esafe p rf (w_fty w) sg par ienv st own t = true -> inv st en -> (forall d, own = Some d -> lookup d en = Some v) ->
      type_ref p t = Some r -> has r v -> (height v < H)%nat -> halts (fun k => se_type w p rf inp None (se k) en t v).
    Proof.
      assert (P : forall pr v, has (match pr with PBool => RTBool | PF32 => RTF32 | PF64 => RTF64 | PScalar e => RTInt (es_scalar e) end) v -> okerr (se_prim pr v)).
      { intros pr v Hv. unfold se_prim. destruct (prim_ok pr v Hv) as (b & ->). exact I. }
      assert (Fo : forall f ats vs v, sg_f sg f ats = true -> Forall2 vhas ats vs -> has (RTForeign f) v -> okerr (se_foreign w None f vs v)).
      { intros f ats vs v E Hv Hf. unfold se_foreign. apply okerr_bind; [|intros b _; exact I]. inversion Hf; subst. eapply Hef; eassumption. }
      induction t as [e| | | |d|d|n|n args|el lc IH|len tg items _] using ty_ind'; intros st own en r v S0 I Ow Tr Hv Hh; cbn [se_type]; cbn [type_esafe] in S0; cbn [type_ref] in Tr; try discriminate.
      - injection Tr as <-. apply halts_const, P. exact Hv.
      - injection Tr as <-. apply halts_const, P. exact Hv.
      - injection Tr as <-. apply halts_const, P. exact Hv.
      - injection Tr as <-. apply halts_const, P. exact Hv.
      - injection Tr as <-. apply halts_const. eapply Fo; [exact S0|constructor|exact Hv].
      - destruct (esafes p (w_fty w) sg (sc_ty st) ienv args) as [ats|] eqn:Ea; [|discriminate]. destruct (eevs_ok _ _ _ I _ Ea) as (vs & Ev & Hvs). eapply halts_let; [exact Ev|]. cbv beta. unfold foreign_of in S0.
        destruct (p n) as [[da dt dp]|] eqn:Ep; [|discriminate]. cbn [d_ty] in *.
        assert (G : Some (RTNamed n) = Some r -> match par n with Some ps => ales ats ps | None => false end = true -> halts (fun k => se k n vs v)).
        { intros G1 G2. injection G1 as <-. destruct (par n) as [ps|] eqn:Ep'; [|discriminate]. eapply Hrec; [exact Ep'|eapply ales_has; eassumption|exact Hv|exact Hh]. }
        destruct dt; try (apply G; assumption). injection Tr as <-. apply halts_const. eapply Fo; eassumption.
      - apply andb_true_iff in S0 as (S1 & S2). apply andb_true_iff in S1 as (B & S1). destruct (type_ref p el) as [r'|] eqn:Er; [|discriminate]. injection Tr as <-. inversion Hv as [| | | |r0 l Hl Hn| | | | | | | | |]; subst. cbn [se_arr arr_of].
        assert (L : match kind_of (resolved p rf el) with KLoop => type_esafe p rf (w_fty w) sg par ienv st None el | _ => true end = true -> kind_of (resolved p rf el) = KLoop -> forall x, In x l -> halts (fun k => se_type w p rf inp None (se k) en el x)).
        { intros G Ek x Hx. rewrite Ek in G. eapply IH; [exact G|exact I|discriminate|reflexivity|apply Hl; exact Hx|]. apply height_in in Hx. lia. }
        assert (Pb : forall pr, kind_of (resolved p rf el) = KPrim pr -> exists bs, mapM (prim_enc pr) l = Ok bs).
        { intros pr Ek. apply mapM_all. intros x Hx. apply prim_ok. pose proof (ebulk_prim _ _ B Ek) as Ek'. rewrite (kind_prim_ref p _ _ Ek') in Er. injection Er as <-. apply Hl. exact Hx. }
        assert (Rb : forall d, kind_of (resolved p rf el) = KRepr d -> exists bs, mapM (repr_enc d) l = Ok bs).
        { intros d Ek. apply mapM_all. intros x Hx. destruct (ebulk_repr _ _ B Ek) as (n & args & dd & -> & Ep & Et). eapply repr_ok; [exact Ep|exact Et|]. specialize (Hl _ Hx). cbn [type_ref] in Er. rewrite Ep in Er. rewrite Et in Er. destruct d; injection Er as <-; exact Hl. }
        destruct lc as [e| |e]; cbn [se_arr].
        + destruct (count_ref (emit (w_fty w) e)) as [[n ex]|] eqn:Ec; [|discriminate]. destruct own as [d|]; [|discriminate]. apply andb_true_iff in S2 as (S2 & S3).
          destruct (count_ref_ok _ _ _ _ _ _ _ Ec S2 I (Ow _ eq_refl) Hn) as (s & z & Ev & Zl & Zq). eapply halts_let; [exact Ev|]. cbv beta. cbn [vint of_some bind].
          assert (Zm : z = Z.of_nat (List.length l) -> z mod 2 ^ 64 =? Z.of_nat (List.length l) = true) by (intros Zz; apply Z.eqb_eq; rewrite Zz; apply Z.mod_small; lia).
          destruct (kind_of (resolved p rf el)) as [pr|d'|] eqn:Ek.
          * destruct (Pb pr eq_refl) as (bs & Eb). apply Zq in S3. destruct pr as [| | |e0]; try discriminate; cbn [arr_of bind]; rewrite (Zm S3), Eb; apply halts_const; exact Logic.I.
          * destruct (Rb d' eq_refl) as (bs & Eb). apply Zq in S3. cbn [arr_of bind]. rewrite (Zm S3), Eb. apply halts_const. exact Logic.I.
          * assert (E0 : (if (Z.to_nat z =? 0)%nat then Ok l else arr_of (VArr l)) = Ok l) by (destruct (_ =? _)%nat; reflexivity). eapply halts_let; [exact E0|]. cbv beta.
            apply halts_bind; [|intros xs _; apply halts_const; exact Logic.I]. apply se_times_halts; [lia|]. intros x Hx. apply L; auto.
        + destruct (kind_of (resolved p rf el)) as [pr|d'|] eqn:Ek.
          * destruct (Pb pr eq_refl) as (bs & Eb). destruct pr as [| | |e0]; try discriminate; cbn [arr_of bind]; rewrite Eb; apply halts_const; exact Logic.I.
          * destruct (Rb d' eq_refl) as (bs & Eb). cbn [arr_of bind]. rewrite Eb. apply halts_const. exact Logic.I.
          * cbn [arr_of bind]. apply halts_bind; [|intros xs _; apply halts_const; exact Logic.I]. apply mapM_halts. intros x Hx. apply L; auto.
        + apply andb_true_iff in S2 as (S2 & S3). destruct (refs_bytes _ _ _ I S3) as (tl & bs & Ev & Eb). eapply halts_let; [exact Ev|]. cbv beta. cbn [arr_of bind].
          apply halts_bind; [|intros xs _; cbn [arr_of bind]; rewrite Eb; apply halts_const; exact Logic.I]. apply mapM_halts. intros x Hx. eapply IH; [exact S2|exact I|discriminate|reflexivity|apply Hl; exact Hx|]. apply height_in in Hx. lia.
    Qed.

    (** *** Fields *)
    Notation leafy a t := (is_cont t || fa_pad a = false).
    Lemma exs_halts {A} st en xs (f : nat -> res ioerr (list Z * A)) : forallb (xsafe p (w_fty w) sg (sc_ty st) ienv) xs = true -> inv st en -> halts f -> halts (fun k => se_xs w inp None en xs (f k)).
    Proof.
      intros E I Hf. induction xs as [|x xs IH]; cbn [se_xs]; [exact Hf|]. cbn [forallb] in E. apply andb_true_iff in E as (E1 & E2). unfold xsafe in E1. apply andb_true_iff in E1 as (E0 & E1).
      destruct (esafes p (w_fty w) sg (sc_ty st) ienv (x_args x)) as [ats|] eqn:Ea; [|discriminate]. destruct (eevs_ok _ _ _ I _ Ea) as (vs & Ev & Hvs).
      assert (C : exists c, (match x_cond x with Some e => let! v := ev w inp en e in bool_of v | None => Ok true end) = Ok c).
      { pose proof (ebsafe _ _ _ E0 I) as B. destruct (x_cond x) as [e|]; [|eauto]. destruct B as (b & ->). cbn [bind bool_of]. eauto. }
      destruct C as (c & C). eapply halts_let; [exact C|]. cbv beta. destruct c; [|exact (IH E2)]. eapply halts_let; [exact Ev|]. cbv beta. apply halts_bind; [exact (IH E2)|]. intros [b a] _. apply halts_const.
      apply okerr_bind; [eapply Hex; eassumption|]. intros b' _. exact Logic.I.
    Qed.
    Lemma se_xs_keeps {A} en xs (k : res ioerr (list Z * A)) : forall b a, se_xs w inp None en xs k = Ok (b, a) -> exists b', k = Ok (b', a).
    Proof.
      induction xs as [|x xs IH]; intros b a E; cbn [se_xs] in E; [eauto|]. bi E c Ec. destruct c; [|eapply IH; exact E]. bi E vs Ev. bi E y Ey. destruct y as [b1 a1]. bi E b' Eb. cbn [refuse] in E. apply Ok_inj in E. injection E as <- <-. eapply IH; exact Ey.
    Qed.

    Definition complex_ok (a : fattr) (t : ty) : Prop := forall st en cond pend v, inv st en -> complex_esafe p rf (w_fty w) sg par ienv a t st cond pend = true ->
      (leafy a t -> exists r, type_ref p t = Some r /\ has r v /\ (height v < H)%nat /\ (fa_cond a = None -> lookup (fa_name a) en = Some v)) ->
      halts (fun k => se_complex w p rf inp None (se k) a t en v cond pend).
    Definition item_ok (f : fattr * ty) : Prop := forall st en cond pend v, inv st en ->
      field_esafe p (w_fty w) sg ienv (complex_esafe p rf (w_fty w) sg par ienv (fst f) (snd f)) (fst f) (snd f) st cond pend = true ->
      (leafy (fst f) (snd f) -> lookup (fa_name (fst f)) en = Some v) -> halts (fun k => se_field w inp None (se_item w p rf inp None (se k) f) en v cond pend).
    Lemma complex_field a t : complex_ok a t -> item_ok (a, t).
    Proof.
      intros C st en cond pend v I S0 Lv. cbn [fst snd] in *. unfold field_esafe in S0. rewrite !andb_true_iff in S0. destruct S0 as (((S1 & S2) & S3) & S4).
      assert (G : forall cond v, complex_esafe p rf (w_fty w) sg par ienv a t st cond pend = true -> (leafy a t -> exists r, type_ref p t = Some r /\ has r v /\ (height v < H)%nat /\ (fa_cond a = None -> lookup (fa_name a) en = Some v)) ->
        halts (fun k => se_xs w inp None en (fa_xs a) (let! v := Ok v in let! (b, vs) := se_complex w p rf inp None (se k) a t en v cond pend in Ok (b, (vs, List.length b))))).
      { intros cond' v' G1 G2. eapply exs_halts; [exact S2|exact I|]. cbn [bind]. apply halts_bind; [eapply C; eassumption|]. intros [b vs] _. apply halts_const. exact Logic.I. }
      assert (Lf : leafy a t -> exists r, lookup (fa_name a) (sc_ty st) = Some r /\ has r v /\ (height v < H)%nat).
      { intros E. unfold leaf_esafe in S1. rewrite E in S1. cbn [orb] in S1. destruct (lookup (fa_name a) (sc_ty st)) as [r|] eqn:El; [|discriminate]. destruct (proj1 I _ _ El) as (u & Lu & Hu). rewrite (Lv E) in Lu. injection Lu as <-. eauto. }
      unfold se_item, se_field. cbn [fst snd]. pose proof (ebsafe _ _ _ S3 I) as B. destruct (fa_cond a) as [e|] eqn:Ec.
      - destruct B as (b & Eb). eapply halts_let; [exact Eb|]. cbv beta. cbn [bool_of bind]. cbn [is_some] in S4. rewrite orb_true_r in S4. destruct b; [|apply halts_const; exact Logic.I].
        apply halts_bind; [|intros [b [vs n]] _; apply halts_const; exact Logic.I].
        destruct (is_cont t) eqn:Et; [cbn [negb andb]; apply G; [exact S4|discriminate]|]. destruct (fa_pad a) eqn:Ep; [rewrite andb_false_r; apply G; [exact S4|discriminate]|].
        destruct (Lf eq_refl) as (r & El & Hv & Hh). unfold leaf_esafe in S1. rewrite Et, Ep, El, Ec in S1. cbn [orb is_some andb] in S1. destruct (fa_calc a) as [e'|]; cbn [is_some negb andb] in *.
        + apply G; [exact S4|]. intros _. destruct (takes_has _ _ _ S1 Hv) as (r' & Tr & Hv'). exists r'. split; [exact Tr|]. split; [exact Hv'|]. split; [exact Hh|]. discriminate.
        + destruct r as [| | | | |r| |]; try discriminate. inversion Hv as [| | | | | |r0 u Hu| | | | | | |]; subst; cbn [unwrap_opt].
          * exact (exs_halts st en _ (fun _ => Err EEncode) S2 I (@halts_const (list Z * (vals * nat)) (Err EEncode) Logic.I)).
          * apply G; [exact S4|]. intros _. destruct (takes_has _ _ _ S1 Hu) as (r' & Tr & Hv'). exists r'. split; [exact Tr|]. split; [exact Hv'|]. split; [exact Hh|]. discriminate.
      - cbn [is_some] in S4. rewrite orb_false_r in S4. apply G; [exact S4|]. intros E. destruct (Lf E) as (r & El & Hv & Hh). unfold leaf_esafe in S1. rewrite E, El, Ec in S1. cbn [orb is_some andb] in S1.
        destruct (takes_has _ _ _ S1 Hv) as (r' & Tr & Hv'). exists r'. split; [exact Tr|]. split; [exact Hv'|]. split; [exact Hh|]. intros _. exact (Lv E).
    Qed.
    Lemma unwraps_ok items : forall st st' en, unwraps items st = Some st' -> inv st en -> match se_unwraps items en with Ok en' => inv st' en' | Err _ => True | _ => False end.
    Proof.
      induction items as [|[a t] items IH]; intros st st' en E I; cbn [unwraps se_unwraps] in *; [injection E as <-; exact I|]. destruct (_ || _); [eapply IH; eassumption|].
      destruct (lookup (fa_name a) (sc_ty st)) as [r|] eqn:El; [|discriminate]. destruct r as [| | | | |r| |]; try discriminate. destruct (proj1 I _ _ El) as (v & Lv & Hv & Hh). rewrite Lv. cbn [of_some bind].
      inversion Hv as [| | | | | |r0 u Hu| | | | | | |]; subst; cbn [unwrap_opt bind]; [exact Logic.I|]. eapply IH; [exact E|]. apply inv_push; assumption.
    Qed.
    Lemma limit_halts {A} st en len pend (f : nat -> res ioerr (list Z * A)) : limit_esafe p (w_fty w) sg ienv st pend len = true -> inv st en -> halts f -> halts (fun k => se_limit w inp None en len pend (f k)).
    Proof.
      unfold limit_esafe, se_limit. destruct len as [e|]; [|auto]. destruct pend; [auto|]. cbn [orb]. intros E I Hf. destruct (small_ok _ _ _ E I) as (v & n & Ev & En). eapply halts_let; [exact Ev|]. cbv beta. eapply halts_let; [exact En|]. cbv beta.
      apply halts_bind; [exact Hf|]. intros [b a] _. apply halts_const. exact Logic.I.
    Qed.

    (** *** Containers *)
    Definition chk_item (f : fattr * ty) (cond : bool) : escope -> bool := fun st => field_esafe p (w_fty w) sg ienv (complex_esafe p rf (w_fty w) sg par ienv (fst f) (snd f)) (fst f) (snd f) st cond false.
    Definition wrel (cond : bool) (c : option (string * string * expr * (escope -> bool))) (x : option (string * (fattr * ty) * expr * list Z * vals)) : Prop :=
      match x with
      | None => c = None
      | Some (on, f, e, _, _) => c = Some (on, fa_name (fst f), e, chk_item f cond) /\ item_ok f /\ leafy (fst f) (snd f)
      end.
    Definition mkw (k : nat) (x : option (string * (fattr * ty) * expr * list Z * vals)) : option waiting :=
      match x with
      | None => None
      | Some (on, f, e, b, vs) => Some {| wt_on := on; wt_item := se_item w p rf inp None (se k) f; wt_calc := e; wt_bytes := b; wt_vals := vs |}
      end.
    Lemma items_halts items : Forall item_ok items -> forall st en cond out vs0 c x, inv st en -> wrel cond c x -> items_esafe p (w_fty w) sg ienv (map (item_esafe p rf (w_fty w) sg par ienv) items) st cond c = true ->
      halts (fun k => se_items w inp None (map (se_item w p rf inp None (se k)) items) en cond out vs0 (mkw k x)).
    Proof.
      induction 1 as [|[a t] items Hi _ IH]; intros st en cond out vs0 c x I W S0.
      - cbn [map se_items]. destruct x as [[[[[on f] e] b] vs]|]; [destruct W as (-> & _); discriminate|]. cbn [mkw]. apply halts_const. exact Logic.I.
      - cbn [map se_items]. unfold se_item at 1. cbn [fst snd]. cbn [map items_esafe] in S0. unfold item_esafe at 1 in S0. cbn [fst snd] in S0.
        assert (Plain : (let pend := match c with Some (on, _, _, _) => String.eqb on (fa_name a) | None => false end in
            field_esafe p (w_fty w) sg ienv (complex_esafe p rf (w_fty w) sg par ienv a t) a t st cond pend &&
            match c with
            | None => items_esafe p (w_fty w) sg ienv (map (item_esafe p rf (w_fty w) sg par ienv) items) st cond None
            | Some (on, f, e, chk) =>
                if pend && is_some (cont_len t) then
                  match rewrite_blen [on] e with
                  | Some e' =>
                      match emit (w_fty w) e' with
                      | RAs (RField n) (TyScalar es) =>
                          let st' := esc_push f (RTInt (es_scalar es)) (esc_hide (blen_name (fa_name a)) st) in
                          String.eqb n (blen_name (fa_name a)) && chk st' && items_esafe p (w_fty w) sg ienv (map (item_esafe p rf (w_fty w) sg par ienv) items) st' cond None
                      | _ => false
                      end
                  | None => false
                  end
                else items_esafe p (w_fty w) sg ienv (map (item_esafe p rf (w_fty w) sg par ienv) items) st cond c
            end) = true ->
          halts (fun k => let! v := (if is_cont t || fa_pad a then Ok (VBool false) else of_some (lookup (fa_name a) en)) in
            let pend := match mkw k x with Some x => String.eqb (wt_on x) (fa_name a) | None => false end in
            let! (b, (vs, n)) := se_field w inp None (a, t, se_complex w p rf inp None (se k) a t) en v cond pend in
            match mkw k x with
            | None => se_items w inp None (map (se_item w p rf inp None (se k)) items) en cond (out ++ b) (vs0 ++ vs) None
            | Some x =>
              if pend && is_some (cont_len t) then
                let en' := (blen_name (fa_name a), VInt U64 (Z.of_nat n)) :: en in
                let! e' := of_some (rewrite_blen [wt_on x] (wt_calc x)) in
                let! cv := ev w inp en' e' in
                let en'' := (fa_name (fst (fst (wt_item x))), cv) :: en' in
                let! (b0, (vs1, _)) := se_field w inp None (wt_item x) en'' cv cond false in
                se_items w inp None (map (se_item w p rf inp None (se k)) items) en'' cond (out ++ b0 ++ wt_bytes x ++ b) (vs0 ++ vs1 ++ wt_vals x ++ vs) None
              else se_items w inp None (map (se_item w p rf inp None (se k)) items) en cond out vs0
                     (Some {| wt_on := wt_on x; wt_item := wt_item x; wt_calc := wt_calc x;
                              wt_bytes := wt_bytes x ++ b; wt_vals := wt_vals x ++ vs |})
            end)).
        { clear S0. cbn zeta. rewrite andb_true_iff. intros (S1 & S2).
          assert (V : exists v, (if is_cont t || fa_pad a then Ok (VBool false) else of_some (lookup (fa_name a) en)) = Ok v /\ (leafy a t -> lookup (fa_name a) en = Some v)).
          { destruct (is_cont t || fa_pad a) eqn:E; [eexists; split; [reflexivity|discriminate]|]. pose proof S1 as S1'. unfold field_esafe in S1'. rewrite !andb_true_iff in S1'. destruct S1' as (((S1' & _) & _) & _). unfold leaf_esafe in S1'. rewrite E in S1'. cbn [orb] in S1'.
            destruct (lookup (fa_name a) (sc_ty st)) as [r|] eqn:El; [|discriminate]. destruct (proj1 I _ _ El) as (v & Lv & _). exists v. rewrite Lv. split; [reflexivity|reflexivity]. }
          destruct V as (v & Ev & Lv). eapply halts_let; [exact Ev|]. cbv beta.
          destruct x as [[[[[on [a0 t0]] e] bw] vw]|]; cbn [wrel mkw wt_on wt_item wt_calc wt_bytes wt_vals] in *.
          - destruct W as (-> & Io & Lo). cbn [fst snd] in *. apply halts_bind; [apply (Hi _ _ _ _ _ I S1); exact Lv|]. intros [b [vs n]] _. destruct (String.eqb on (fa_name a) && is_some (cont_len t)).
            + destruct (rewrite_blen [on] e) as [e'|] eqn:Er; [|discriminate]. cbn [of_some bind]. destruct (emit (w_fty w) e') eqn:Ee; try discriminate. match type of S2 with match ?r with _ => _ end = _ => destruct r; try discriminate end. match type of S2 with match ?r with _ => _ end = _ => destruct r; try discriminate end.
              rewrite !andb_true_iff in S2. destruct S2 as ((S2 & S3) & S4). apply String.eqb_eq in S2. subst.
              assert (Ec : forall en0, ev w inp ((blen_name (fa_name a), VInt U64 (Z.of_nat n)) :: en0) e' = Ok (VInt (es_scalar e0) (wrap (es_scalar e0) (Z.of_nat n)))).
              { intros en0. unfold ev, eval. rewrite Ee. cbn [reval]. rewrite lookup_cons, String.eqb_refl. reflexivity. }
              rewrite Ec. cbn [bind]. unfold se_item at 2. cbn [fst snd].
              assert (I' : inv (esc_push (fa_name a0) (RTInt (es_scalar e0)) (esc_hide (blen_name (fa_name a)) st)) ((fa_name a0, VInt (es_scalar e0) (wrap (es_scalar e0) (Z.of_nat n))) :: (blen_name (fa_name a), VInt U64 (Z.of_nat n)) :: en)).
              { apply inv_push; [apply inv_hide; exact I|constructor; apply wrap_in_range|exact Hpos]. }
              apply halts_bind; [|intros [b0 [vs1 n1]] _; apply (IH _ _ _ _ _ None None I' eq_refl S4)]. apply (Io _ _ _ _ _ I' S3). intros _. cbn [fst]. rewrite lookup_cons, String.eqb_refl. reflexivity.
            + eapply (IH st en cond out vs0) with (x := Some (on, (a0, t0), e, bw ++ b, vw ++ vs)); [exact I| |exact S2]. split; [reflexivity|]. split; [exact Io|exact Lo].
          - subst c. apply halts_bind; [apply (Hi _ _ _ _ _ I S1); exact Lv|]. intros [b [vs n]] _. apply (IH _ _ _ _ _ None None I eq_refl S2). }
        destruct (fa_calc a) as [e|]; [|exact (Plain S0)]. destruct (blen_calls e) as [[|c0 [|c1 l]]|]; try discriminate; [exact (Plain S0)|].
        destruct c as [[[[on f] e1] chk]|]; [discriminate|]. destruct x as [[[[[on f] e1] b] vs]|]; [destruct W as (W & _); discriminate|]. cbn [mkw]. rewrite !andb_true_iff in S0. destruct S0 as ((S1 & S2) & S3).
        eapply (IH st en cond out vs0) with (x := Some (c0, (a, t), e, [], [])); [exact I| |exact S3]. split; [reflexivity|]. split; [exact Hi|]. cbn [fst snd]. destruct (is_cont t); [discriminate|]. destruct (fa_pad a); [discriminate|reflexivity].
    Qed.
    Lemma complex_halts t : forall a, complex_ok a t.
    Proof.
      assert (Leaf : forall t a, is_cont t = false -> complex_ok a t).
      { intros t0 a Ec st en cond pend v I S0 Lv.
        assert (Ty : fa_pad a = false -> halts (fun k => let! (b, v') := se_type w p rf inp None (se k) en t0 v in Ok (b, [(fa_name a, v')]))).
        { intros Ep. rewrite Ec, Ep in Lv. destruct (Lv eq_refl) as (r & Tr & Hv & Hh & Lo). apply halts_bind; [|intros [b v'] _; apply halts_const; exact Logic.I].
          assert (St : type_esafe p rf (w_fty w) sg par ienv st (if is_some (fa_cond a) then None else Some (fa_name a)) t0 = true) by (destruct t0; try discriminate Ec; cbn [complex_esafe] in S0; rewrite Ep in S0; exact S0).
          eapply type_ehalts; [exact St|exact I| |exact Tr|exact Hv|exact Hh]. destruct (fa_cond a); cbn [is_some]; [discriminate|]. intros d Ed. injection Ed as <-. apply Lo. reflexivity. }
        assert (Pd : fa_pad a = true -> halts (fun k : nat => match t0 with TArr _ (LFixed e) => let! v := ev w inp en e in let! n := len_of v in Ok (repeat 0 n, @nil (string * val)) | _ => Panic end)).
        { intros Ep. destruct t0 as [| | | | | | | |el lc|]; cbn [complex_esafe] in S0; rewrite Ep in S0; try discriminate. destruct lc; try discriminate. destruct (small_ok _ _ _ S0 I) as (u & n & Eu & En). rewrite Eu. cbn [bind]. rewrite En. apply halts_const. exact Logic.I. }
        destruct t0; try discriminate Ec; cbn [se_complex]; destruct (fa_pad a); auto. }
      induction t as [e| | | |d|d|n|n args|el lc IH|len tg items IH] using ty_ind'; intros a; try (apply Leaf; reflexivity).
      intros st en cond pend v I S0 _. cbn [se_complex complex_esafe] in *. destruct (fa_pad a); [discriminate|]. rewrite !andb_true_iff in S0. destruct S0 as ((S1 & S2) & S3). destruct tg; [discriminate|].
      eapply limit_halts; [exact S2|exact I|].
      assert (Hi : Forall item_ok items) by (apply Forall_forall; intros [a0 t0] Hf; apply complex_field; rewrite Forall_forall in IH; apply (IH _ Hf)).
      assert (G : forall st' en', inv st' en' -> items_esafe p (w_fty w) sg ienv (map (item_esafe p rf (w_fty w) sg par ienv) items) st' cond None = true -> halts (fun k => se_items w inp None (map (se_item w p rf inp None (se k)) items) en' cond [] [] None)).
      { intros st' en' I' S'. exact (items_halts items Hi st' en' cond [] [] None None I' eq_refl S'). }
      destruct cond.
      - destruct (unwraps items st) as [st'|] eqn:Eu; [|discriminate]. pose proof (unwraps_ok _ _ _ _ Eu I) as U. destruct (se_unwraps items en) as [en'|e| |]; try contradiction; cbn [bind]; [|apply halts_const; exact Logic.I]. exact (G _ _ U S3).
      - cbn [bind]. exact (G _ _ I S3).
    Qed.
    Lemma all_items_ok items : Forall item_ok items.
    Proof. apply Forall_forall. intros [a t] _. apply complex_field. apply complex_halts. Qed.

    (** *** The surroundings of a body *)
    Lemma refs_ok ts fs : has_fields ts fs -> (list_max (map (fun x : string * val => height (snd x)) fs) < H)%nat -> forall l st st' en, refs l ts st = Some st' -> inv st en -> exists en', se_refs l fs en = Ok en' /\ inv st' en'.
    Proof.
      intros Hf Hm. induction l as [|[a t] l IH]; intros st st' en E I; cbn [refs se_refs] in *; [injection E as <-; eauto|]. destruct (_ || _); [eapply IH; eassumption|].
      destruct (lookup (fa_name a) ts) as [r|] eqn:El; [|discriminate]. destruct (has_fields_lookup' p F _ _ _ _ Hf El) as (v & Lv & Hv). rewrite Lv. cbn [of_some bind]. eapply IH; [exact E|]. apply inv_push; [exact I|exact Hv|]. apply height_field in Lv. lia.
    Qed.
    Lemma counts_ok en e d vs : counts (emit (w_fty w) e) = Some d -> lookup d en = Some (VArr vs) -> Z.of_nat (List.length vs) < 2 ^ 63 ->
      exists s z, ev w inp en e = Ok (VInt s z) /\ 0 <= z <= Z.of_nat (List.length vs) /\ (wide s = true -> z = Z.of_nat (List.length vs)).
    Proof.
      intros E Ld Ln. unfold ev, eval. destruct (emit (w_fty w) e); cbn [counts] in E; try discriminate.
      - match goal with |- context [RAs ?r ?t] => destruct r as [| | | | | | | | | | | | | | |fn args| |]; try discriminate; destruct args as [|x [|]]; [discriminate| |destruct x; discriminate]; destruct x; try discriminate; destruct t; try discriminate end.
        destruct (String.eqb_spec fn "len") as [->|]; [|discriminate]. cbn [andb] in E. destruct (is_signed (es_scalar e0)) eqn:Es; [discriminate|]. injection E as ->.
        cbn -[wrap]. rewrite Ld. cbn -[wrap]. eexists _, _. split; [reflexivity|]. split; [split; [|apply wrap_le; lia]|].
        + pose proof (wrap_in_range (es_scalar e0) (Z.of_nat (List.length vs))) as R. apply in_range_iff in R. unfold min_of in R. rewrite Es in R. lia.
        + intros W. apply wide_wrap; [exact W|lia].
      - destruct args as [|x [|]]; [discriminate| |destruct x; discriminate]. destruct x; try discriminate. destruct (String.eqb_spec fn "len") as [->|]; [|discriminate]. injection E as ->.
        cbn. rewrite Ld. cbn. eexists _, _. split; [reflexivity|]. split; [lia|reflexivity].
    Qed.
    Lemma calcs_ok l : forall st st' en, calcs p (w_fty w) sg ienv l st = Some st' -> inv st en -> exists en', se_calcs w inp l en = Ok en' /\ inv st' en'.
    Proof.
      induction l as [|[a t] l IH]; intros st st' en E I; cbn [calcs se_calcs] in *; [injection E as <-; eauto|]. destruct (fa_calc a) as [e|]; [|eapply IH; eassumption]. destruct (blen_calls e) as [[|c cs]|]; [|eapply IH; eassumption|discriminate].
      destruct (Safe.esafe p (w_fty w) sg (sc_ty st) ienv e) as [ty|] eqn:Ee; [|discriminate]. destruct (flat p (rty_of ty)) eqn:Ef; [|discriminate]. destruct (eev_ok _ _ _ _ Ee I) as (v & Ev & Hv). rewrite Ev. cbn [bind]. eapply IH; [exact E|].
      apply has_vhas_of in Hv. assert (Hh : (height v < H)%nat) by (rewrite (flat_height _ Ef _ Hv); exact Hpos). assert (I' : inv (esc_push (fa_name a) (rty_of ty) st) ((fa_name a, v) :: en)) by (apply inv_push; assumption).
      unfold calc. destruct (counts (emit (w_fty w) e)) as [d|] eqn:Ec; [|exact I']. destruct (lookup d (sc_ty st)) as [r|] eqn:Ed; [|exact I']. destruct r; try exact I'. destruct (String.eqb_spec (fa_name a) d) as [|Nd]; [exact I'|]. apply inv_count; [exact I'|].
      destruct (proj1 I _ _ Ed) as (u & Lu & Hu & _). inversion Hu; subst. destruct (counts_ok _ _ _ _ Ec Lu ltac:(assumption)) as (s & z & Ez & B & W). rewrite Ev in Ez. injection Ez as ->. exists s, z. eexists. cbn [fst snd]. rewrite !lookup_cons, String.eqb_refl.
      destruct (String.eqb_spec (fa_name a) d); [contradiction|]. split; [reflexivity|]. split; [exact Lu|]. split; [exact B|exact W].
    Qed.
    Lemma inside_ok items o en : inside p rf (w_fty w) sg par ienv items o = true -> match o with Some st => inv st en | None => True end ->
      exists en', se_calcs w inp (flatten_items items) en = Ok en' /\ halts (fun k => se_items w inp None (map (se_item w p rf inp None (se k)) items) en' false [] [] None).
    Proof.
      unfold inside. destruct o as [st|]; [|discriminate]. destruct (calcs p (w_fty w) sg ienv (flatten_items items) st) as [st'|] eqn:Ec; [|discriminate]. intros S0 I. destruct (calcs_ok _ _ _ _ Ec I) as (en' & Ee & I'). exists en'. split; [exact Ee|].
      exact (items_halts items (all_items_ok items) st' en' false [] [] None None I' eq_refl S0).
    Qed.
    Lemma picks_ok ts fs : has_fields ts fs -> (list_max (map (fun x : string * val => height (snd x)) fs) < H)%nat -> forall ns acc l en, picks ns ts acc = Some l -> types_ok acc en ->
      exists vs, mapM (fun n => let! x := of_some (lookup n fs) in Ok (n, x)) ns = Ok vs /\ types_ok l (rev vs ++ en).
    Proof.
      intros Hf Hm. induction ns as [|n ns IH]; intros acc l en E T; cbn [picks] in E; [injection E as <-; exists []; split; [reflexivity|exact T]|].
      destruct (lookup n ts) as [r|] eqn:El; [|discriminate]. destruct (has_fields_lookup' p F _ _ _ _ Hf El) as (v & Lv & Hv).
      destruct (IH _ _ ((n, v) :: en) E) as (vs & Ev & T').
      { intros x t Ex. rewrite lookup_cons in Ex. rewrite lookup_cons. destruct (String.eqb n x); [apply Some_inj in Ex; subst t; exists v; split; [reflexivity|]; split; [exact Hv|]; apply height_field in Lv; lia|apply T; exact Ex]. }
      exists ((n, v) :: vs). cbn [mapM]. rewrite Lv. cbn [of_some bind]. rewrite Ev. split; [reflexivity|]. cbn [rev]. rewrite <- app_assoc. exact T'.
    Qed.
    Lemma variant_of items : forall vs k x, names_once (map (fun f : fattr * ty => (fa_name (fst f), tt)) items) = true -> gen_variants p items = Some vs -> In (k, x) vs -> forall a t, In (a, t) items -> fa_name a = k ->
      match t with TCont _ _ sub => option_map inr (gen_fields p false sub) | _ => option_map inl (type_ref p t) end = Some x.
    Proof.
      assert (Lk : forall items (n : string), lookup n (map (fun f : fattr * ty => (fa_name (fst f), tt)) items) = None -> forall a t, In (a, t) items -> fa_name a <> n).
      { clear. induction items as [|[b u] items IH]; intros n E a t Hin; [destruct Hin|]. cbn [map fst] in E. rewrite lookup_cons in E. destruct (String.eqb_spec (fa_name b) n) as [|Nb]; [discriminate|]. destruct Hin as [Eq|Hin]; [injection Eq as <- <-; exact Nb|eapply IH; eassumption]. }
      assert (Gn : forall items vs k x, gen_variants p items = Some vs -> In (k, x) vs -> exists a t, In (a, t) items /\ fa_name a = k).
      { clear. induction items as [|[b u] items IH]; intros vs k x E Hin; cbn [gen_variants] in E; [injection E as <-; destruct Hin|].
        destruct (match u with TCont _ _ sub => _ | _ => _ end) as [y|]; [|discriminate]. destruct (gen_variants p items) as [ws|]; [|discriminate]. injection E as <-. destruct Hin as [Eq|Hin]; [injection Eq as <- _; exists b, u; split; [left; reflexivity|reflexivity]|].
        destruct (IH _ _ _ eq_refl Hin) as (a & t & Ha & En). exists a, t. split; [right; exact Ha|exact En]. }
      induction items as [|[b u] items IH]; intros vs k x No E Hin a t Ha Ea; [destruct Ha|]. cbn [map names_once fst] in No. apply andb_true_iff in No as (No1 & No2). destruct (lookup (fa_name b) _) eqn:Lb; [discriminate|].
      cbn [gen_variants] in E. destruct (match u with TCont _ _ sub => _ | _ => _ end) as [y|] eqn:Ey; [|discriminate]. destruct (gen_variants p items) as [ws|] eqn:Ew; [|discriminate]. injection E as <-.
      destruct Ha as [Eq|Ha].
      - injection Eq as -> ->. destruct Hin as [Eq|Hin]; [injection Eq as _ <-; exact Ey|]. destruct (Gn _ _ _ _ Ew Hin) as (a' & t' & Ha' & Ea'). exfalso. apply (Lk _ _ Lb _ _ Ha'). congruence.
      - destruct Hin as [Eq|Hin]; [injection Eq as Eq _; exfalso; apply (Lk _ _ Lb _ _ Ha); congruence|]. eapply IH; try eassumption. reflexivity.
    Qed.
    Definition variant_fits (items : list (fattr * ty)) (v : val) : Prop :=
      match v with
      | VVariant _ k x => (height x < H)%nat /\ forall a t, In (a, t) items -> fa_name a = k -> is_cont t = false /\ exists r, type_ref p t = Some r /\ has r x
      | VVariantS _ k fs => (list_max (map (fun x : string * val => height (snd x)) fs) < H)%nat /\ forall a t, In (a, t) items -> fa_name a = k -> exists len tg sub ts, t = TCont len tg sub /\ gen_fields p false sub = Some ts /\ has_fields ts fs
      | _ => False
      end.
    Lemma variants_halts name items : forall v, match v with VVariant n _ _ | VVariantS n _ _ => n = name | _ => False end -> variant_fits items v -> forallb (variant_esafe p rf (w_fty w) sg par ienv) items = true ->
      halts (fun k => se_variants w p rf inp None (se k) name items v).
    Proof.
      induction items as [|[a t] items IH]; intros v Nv Fv S0; cbn [se_variants]; [apply halts_const; exact Logic.I|]. cbn [forallb] in S0. apply andb_true_iff in S0 as (S1 & S2).
      unfold variant_esafe in S1. cbn [fst snd] in S1. rewrite !andb_true_iff in S1. destruct S1 as ((S1 & S3) & S4).
      assert (C : exists c, (match fa_cond a with Some e => let! v := ev w inp [] e in bool_of v | None => Ok true end) = Ok c).
      { pose proof (ebsafe scope0 [] _ S1 (inv0 _)) as B. destruct (fa_cond a) as [e|]; [|eauto]. destruct B as (b & ->). cbn [bind bool_of]. eauto. }
      destruct C as (c & C). eapply halts_let; [exact C|]. cbv beta. destruct c.
      2:{ apply IH; [exact Nv| |exact S2]. destruct v; try contradiction; (split; [apply Fv|intros a0 t0 Ha; apply (proj2 Fv); right; exact Ha]). }
      destruct v as [| | | | | | | | | | |n d x|n d fs]; try contradiction; subst n; rewrite String.eqb_refl.
      - destruct (String.eqb_spec (fa_name a) d) as [Ed|]; [|apply halts_const; exact Logic.I]. destruct Fv as (Hx & Fv). destruct (Fv a t (or_introl eq_refl) Ed) as (Ec & r & Tr & Hv). rewrite Ec.
        apply negb_true_iff in S3.
        assert (St : forallb (xsafe p (w_fty w) sg [] ienv) (fa_xs a) && type_esafe p rf (w_fty w) sg par ienv scope0 None t = true) by (destruct t; try discriminate Ec; exact S4). apply andb_true_iff in St as (St1 & St2).
        assert (Ex : forall k, se_complex w p rf inp None (se k) a t [] x false false = let! (b, v') := se_type w p rf inp None (se k) [] t x in Ok (b, [(fa_name a, v')])) by (intros k; destruct t; try discriminate Ec; cbn [se_complex]; rewrite S3; reflexivity).
        apply halts_bind.
        + eapply (exs_halts scope0); [exact St1|apply inv0|].
          assert (G : halts (fun k => let! (b, v') := se_type w p rf inp None (se k) [] t x in Ok (b, [(fa_name a, v')]))) by (apply halts_bind; [eapply type_ehalts; [exact St2|apply inv0|discriminate|exact Tr|exact Hv|exact Hx]|intros [b v'] _; apply halts_const; exact Logic.I]).
          destruct G as (K & O & G). exists K. rewrite Ex. split; [exact O|]. intros k Hk. rewrite !Ex. apply G. exact Hk.
        + intros [b vs] (k & Ek). destruct (se_xs_keeps _ _ _ _ _ Ek) as (b' & Ek'). rewrite Ex in Ek'. bi Ek' y Ey. destruct y as [b1 v1]. apply Ok_inj in Ek'. injection Ek' as _ <-. apply halts_const. exact Logic.I.
      - destruct (String.eqb_spec (fa_name a) d) as [Ed|]; [|apply halts_const; exact Logic.I]. destruct Fv as (Hx & Fv). destruct (Fv a t (or_introl eq_refl) Ed) as (len & tg & sub & ts & -> & Gs & Hf). cbn [snd] in S4. rewrite Gs in S4.
        destruct (picks (leaf_names (flatten_items sub)) ts []) as [l|] eqn:Ep; [|discriminate]. destruct (picks_ok _ _ Hf Hx _ _ _ [] Ep) as (vs & Ev & T); [intros n0 t0 E0; discriminate E0|]. rewrite app_nil_r in T.
        destruct (inside_ok _ _ (rev vs) S4) as (en' & Ee & G); [split; [exact T|constructor]|]. rewrite Ev. cbn [bind]. rewrite Ee. cbn [bind]. apply halts_bind; [exact G|]. intros [b us] _. apply halts_const. exact Logic.I.
    Qed.
    Lemma flat_top n d v : p n = Some d -> has (RTNamed n) v -> height v = 0%nat -> forallb (xsafe p (w_fty w) sg [] ienv) (fa_xs (d_attr d)) = true -> halts (fun k => se_top w p rf inp None (se k) d v).
    Proof.
      clear Hpos Hrec. intros Ep Hv Hh X.
      assert (Rp : forall r, d_ty d = match r with RpEnum e => TEnum e | RpBits e => TBits e end -> halts (fun k : nat => se_xs w inp None [] (fa_xs (d_attr d)) (se_repr None r v))).
      { intros r Er. eapply (exs_halts scope0); [exact X|apply inv0|]. apply halts_const. unfold se_repr. destruct (repr_ok n d r v Ep Er Hv) as (b & ->). exact Logic.I. }
      unfold se_top. inversion Hv; subst; try discriminate Hh; rewrite Ep in *; repeat match goal with E : Some _ = Some _ |- _ => apply Some_inj in E; subst end; unfold data_of in *; destruct (d_ty _) as [e0| | | |e0|e0|f|m args|el lc|len tg items] eqn:Et; try discriminate;
        try (match goal with E : option_map _ ?x = _ |- _ => destruct x; discriminate E end); try (destruct tg; match goal with E : option_map _ ?x = _ |- _ => destruct x; discriminate E end).
      - exact (Rp (RpEnum e0) eq_refl).
      - exact (Rp (RpBits e0) eq_refl).
    Qed.
    Lemma top_ehalts n d v : p n = Some d -> foreign_of p n = None -> fa_name (d_attr d) = n -> fa_cond (d_attr d) = None -> has (RTNamed n) v -> (height v <= H)%nat ->
      forallb (xsafe p (w_fty w) sg [] ienv) (fa_xs (d_attr d)) = true -> body_esafe p rf (w_fty w) sg par ienv (d_ty d) = true -> halts (fun k => se_top w p rf inp None (se k) d v).
    Proof.
      intros Ep Fo En Ec Hv Hh X B. unfold se_top.
      assert (Xs : forall A (f : nat -> res ioerr (list Z * A)), halts f -> halts (fun k => se_xs w inp None [] (fa_xs (d_attr d)) (f k))) by (intros A f Hf; eapply (exs_halts scope0); [exact X|apply inv0|exact Hf]).
      assert (Tup : match d_ty d with TCont _ _ _ | TForeign _ | TEnum _ | TBits _ => false | _ => true end = true ->
        halts (fun k => match v with VTup x => se_xs w inp None [] (fa_xs (d_attr d)) (let! (b, x') := se_type w p rf inp None (se k) [] (d_ty d) x in Ok (b, VTup x')) | _ => Panic end)).
      { intros Ek. assert (D : data_of p d = option_map GTuple (type_ref p (d_ty d))) by (unfold data_of; rewrite Ec; cbn [is_some]; destruct (d_ty d); try discriminate Ek; try reflexivity; cbn [option_map]; destruct (type_ref p _); reflexivity).
        assert (Bt : type_esafe p rf (w_fty w) sg par ienv scope0 None (d_ty d) = true) by (destruct (d_ty d); try discriminate Ek; exact B).
        inversion Hv; subst; rewrite Ep in *; repeat match goal with E : Some _ = Some _ |- _ => apply Some_inj in E; subst end; rewrite D in *; destruct (type_ref p (d_ty _)) as [r|] eqn:Tr; try discriminate.
        match goal with E : option_map _ _ = Some (GTuple _) |- _ => cbn [option_map] in E; injection E as -> end. apply Xs. apply halts_bind; [|intros [b x'] _; apply halts_const; exact Logic.I].
        eapply type_ehalts; [exact Bt|apply inv0|discriminate|exact Tr|assumption|]. cbn [height] in *. lia. }
      assert (Rp : forall r, d_ty d = match r with RpEnum e => TEnum e | RpBits e => TBits e end -> halts (fun k : nat => se_xs w inp None [] (fa_xs (d_attr d)) (se_repr None r v))).
      { intros r Er. apply Xs. apply halts_const. unfold se_repr. destruct (repr_ok n d r v Ep Er Hv) as (b & ->). exact Logic.I. }
      destruct (d_ty d) as [e| | | |e|e|f|m args|el lc|len tg items] eqn:Et; try (exact (Tup eq_refl)).
      - exact (Rp (RpEnum e) eq_refl).
      - exact (Rp (RpBits e) eq_refl).
      - apply halts_const. exact Logic.I.
      - cbn [body_esafe] in B. destruct tg.
        + rewrite !andb_true_iff in B. destruct B as ((B1 & B2) & B3). apply Xs. eapply (limit_halts scope0); [exact B1|apply inv0|].
          assert (D : data_of p d = option_map GTagged (gen_variants p items)) by (unfold data_of; rewrite Et; reflexivity).
          inversion Hv; subst; rewrite Ep in *; repeat match goal with E : Some _ = Some _ |- _ => apply Some_inj in E; subst end; rewrite D in *; destruct (gen_variants p items) as [vs0|] eqn:Gv; try discriminate;
            match goal with E : option_map _ _ = Some (GTagged _) |- _ => cbn [option_map] in E; injection E as -> end; cbn [height] in *.
          * apply variants_halts; [reflexivity| |exact B3]. split; [lia|]. intros a u Ha Ea. pose proof (variant_of _ _ _ _ B2 Gv ltac:(eassumption) _ _ Ha Ea) as G. destruct u; cbn [option_map] in G; try (destruct (type_ref p _); [|discriminate]; injection G as ->; split; [reflexivity|]; eexists; split; [reflexivity|assumption]).
            destruct (gen_fields p false _); discriminate.
          * apply variants_halts; [reflexivity| |exact B3]. split; [lia|]. intros a u Ha Ea. pose proof (variant_of _ _ _ _ B2 Gv ltac:(eassumption) _ _ Ha Ea) as G. destruct u as [| | | | | | | | |ln tg sub]; try (destruct (type_ref p _); discriminate).
            destruct (gen_fields p false sub) as [us|] eqn:Gf; [|discriminate]. cbn [option_map] in G. injection G as ->. exists ln, tg, sub, ts. split; [reflexivity|]. split; [exact Gf|assumption].
        + rewrite !andb_true_iff in B. destruct B as (B1 & B2). apply Xs. apply halts_bind; [|intros [b vs] _; apply halts_const; exact Logic.I]. eapply (limit_halts scope0); [exact B1|apply inv0|].
          destruct (gen_fields p false items) as [ts|] eqn:Gf; [|discriminate].
          assert (D : data_of p d = Some (GStruct ts)) by (unfold data_of; rewrite Et, Gf; reflexivity).
          inversion Hv; subst; rewrite Ep in *; repeat match goal with E : Some _ = Some _ |- _ => apply Some_inj in E; subst end; rewrite D in *; try discriminate.
          match goal with E : Some (GStruct _) = Some (GStruct _) |- _ => injection E as -> end. cbn [height] in *. unfold se_struct.
          destruct (refs (flatten_items items) ts0 scope0) as [st|] eqn:Er; [|discriminate B2]. destruct (refs_ok _ _ ltac:(eassumption) ltac:(lia) _ _ _ [] Er (inv0 _)) as (en & Ee & I).
          assert (E1 : (if existsb (fun f : fattr * ty => negb (is_some (fa_calc (fst f))) && negb (fa_pad (fst f))) (flatten_items items) then let! fs := fields_of (VStruct (fa_name (d_attr d0)) fs) in se_refs (flatten_items items) fs [] else Ok []) = Ok en).
          { cbn [fields_of bind]. destruct (existsb _ _) eqn:Ex; [exact Ee|]. clear - Ex Ee. revert Ex Ee. generalize (@nil (string * val)) as acc. induction (flatten_items items) as [|[a t] l IH]; intros acc Ex Ee; [exact Ee|]. cbn [existsb fst] in Ex. apply orb_false_iff in Ex as (Ex1 & Ex2). cbn [se_refs] in Ee.
            destruct (is_some (fa_calc a)), (fa_pad a); try discriminate Ex1; cbn [orb] in Ee; exact (IH _ Ex2 Ee). }
          destruct (inside_ok _ _ en B2 I) as (en' & Ec' & G). clear D Rp Tup Xs; eapply halts_let; [exact E1|]. cbv beta. eapply halts_let; [exact Ec'|]. cbv beta. exact G.
    Qed.
  End Body.

  Theorem sencode_halts n ps vs v : par n = Some ps -> Forall2 vhas ps vs -> has (RTNamed n) v -> halts (fun k => se k n vs v).
  Proof.
    remember (height v) as h eqn:Eh. revert n ps vs v Eh. induction h as [h IH] using (well_founded_induction lt_wf). intros n ps vs v Eh En Hvs Hv.
    destruct (Hpar _ _ En) as (d & Ep & Fo & D). unfold decl_esafe in D. rewrite !andb_true_iff in D. destruct D as ((((D1 & D2) & D3) & D4) & (D5 & D6)). apply Nat.eqb_eq in D2. apply String.eqb_eq in D3.
    apply halts_S. cbn [sencode]. rewrite Ep. cbn [of_some bind]. assert (Lv : List.length (d_params d) = List.length vs) by (rewrite D2; eapply f2_length; exact Hvs).
    rewrite (bind_plain _ _ _ _ D1 Lv). cbn [bind]. rewrite app_nil_r.
    assert (Hin : forall x ax, lookup x (rev (combine (map pm_name (d_params d)) ps)) = Some ax -> exists u, lookup x (rev (combine (map pm_name (d_params d)) vs)) = Some u /\ vhas ax u) by (intros x ax Ex; eapply env2_lookup; [|exact Ex]; apply env2_rev, env2_combine; exact Hvs).
    destruct h as [|h]; [eapply (flat_top 0 _ _ Hin); [exact Ep|exact Hv|symmetry; exact Eh|exact D5]|].
    eapply (top_ehalts (S h)); [lia|exact Hin| |exact Ep|exact Fo|exact D3| |exact Hv|rewrite <- Eh; lia|exact D5|exact D6].
    - intros m ps' us u Em Hus Hu Hh. eapply IH; try eassumption. reflexivity.
    - destruct (fa_cond (d_attr d)); [discriminate D4|reflexivity].
  Qed.
End Enc.
