(** Round trip: what the checked semantics writes is read back unchanged.  The statement
    is in P_Coder.v; here are the proof and its lemmas. *)
From Verif Require Import ScalarFacts DecRef EncRef RtWf EnumBitsFacts.

(** ** Evaluation only gets more defined with more fields *)
Lemma bind_ok {E A B} (r : res E A) (f : A -> res E B) b : bind r f = Ok b -> exists a, r = Ok a /\ f a = Ok b.
Proof. destruct r; cbn; intros H; try discriminate. eauto. Qed.
Ltac bi H x E := apply bind_ok in H as (x & E & H).

Lemma reval_mono chk ufn f g inp : forall r, (forall n v, In n (rfv r) -> f n = Some v -> g n = Some v) ->
  forall v, reval chk ufn f inp r = Ok v -> reval chk ufn g inp r = Ok v.
Proof.
  induction r using rexpr_ind'; cbn [reval rfv]; intros H' v0 Hv; try assumption.
  - assert (H1 : forall n v, In n (rfv r1) -> f n = Some v -> g n = Some v) by (intros; apply H'; [apply in_app_iff; auto|assumption]).
    assert (H2 : forall n v, In n (rfv r2) -> f n = Some v -> g n = Some v) by (intros; apply H'; [apply in_app_iff; auto|assumption]).
    destruct op; bi Hv a Ea; rewrite (IHr1 H1 _ Ea); cbn [bind];
      try (bi Hv b Eb; rewrite (IHr2 H2 _ Eb); cbn [bind]; assumption);
      destruct a; try discriminate; destruct b; try assumption; bi Hv b' Eb; rewrite (IHr2 H2 _ Eb); cbn [bind]; assumption.
  - bi Hv a Ea. rewrite (IHr H' _ Ea). assumption.
  - bi Hv a Ea. rewrite (IHr H' _ Ea). assumption.
  - bi Hv a Ea. rewrite (IHr H' _ Ea). assumption.
  - bi Hv a Ea. rewrite (IHr H' _ Ea). assumption.
  - destruct (f n) as [x|] eqn:E; [|discriminate]. rewrite (H' n x); auto. left. reflexivity.
  - assert (H1 : forall n v, In n (rfv r1) -> f n = Some v -> g n = Some v) by (intros; apply H'; [rewrite !in_app_iff; auto|assumption]).
    assert (H2 : forall n v, In n (rfv r2) -> f n = Some v -> g n = Some v) by (intros; apply H'; [rewrite !in_app_iff; auto|assumption]).
    assert (H3 : forall n v, In n (rfv r3) -> f n = Some v -> g n = Some v) by (intros; apply H'; [rewrite !in_app_iff; auto|assumption]).
    bi Hv a Ea. rewrite (IHr1 H1 _ Ea). cbn [bind]. destruct a; try discriminate. destruct b; auto.
  - bi Hv vs Ev.
    match goal with |- bind ?x _ = _ => assert (X : x = Ok vs) end.
    { clear Hv. revert vs Ev. match goal with F : Forall _ _ |- _ => induction F as [|x l E F IH] end; intros vs Ev; [assumption|].
      bi Ev y Ey. bi Ev ys Eys. rewrite (E (fun n v Hn => H' n v (in_or_app _ _ _ (or_introl Hn))) _ Ey). cbn [bind].
      rewrite (IH (fun n v Hn => H' n v (in_or_app _ _ _ (or_intror Hn))) _ Eys). assumption. }
    rewrite X. assumption.
  - bi Hv a Ea. rewrite (IHr H' _ Ea). assumption.
Qed.

Definition sees (S : list string) (en ed : env) : Prop :=
  forall n v, In n S -> lookup n en = Some v -> lookup n ed = Some v.

(** ** Primitives *)
Lemma prim_rt pr v b : prim_enc pr v = Ok b -> List.length b = prim_size pr /\ prim_of pr b = v.
Proof.
  destruct pr as [| | |e], v as [s z|b0|bits|bits| | | | | | | | |]; cbn [prim_enc]; intros H; try discriminate.
  - apply Ok_inj in H. subst b. destruct b0; split; reflexivity.
  - destruct (in_range U32 bits) eqn:E; [|discriminate]. apply Ok_inj in H. subst b. split; [apply scalar_bytes_length|].
    cbn [prim_of]. rewrite scalar_of_bytes_bytes by exact E. reflexivity.
  - destruct (in_range U64 bits) eqn:E; [|discriminate]. apply Ok_inj in H. subst b. split; [apply scalar_bytes_length|].
    cbn [prim_of]. rewrite scalar_of_bytes_bytes by exact E. reflexivity.
  - destruct (scalar_eqb s (es_scalar e)) eqn:Es; [|discriminate]. cbn [andb] in H.
    destruct (in_range s z) eqn:E; [|discriminate]. apply Ok_inj in H. subst b. split; [apply scalar_bytes_length|].
    cbn [prim_of]. assert (s = es_scalar e) by (destruct s, (es_scalar e); cbn in Es; congruence). subst s.
    rewrite scalar_of_bytes_bytes by exact E. reflexivity.
Qed.
Lemma evariant_eqb_eq x y : evariant_eqb x y = true -> x = y.
Proof.
  destruct x, y; cbn; intros H; try discriminate.
  - apply String.eqb_eq in H. congruence.
  - apply andb_true_iff in H as (H1 & H2). apply String.eqb_eq in H1. apply Z.eqb_eq in H2. congruence.
Qed.
Lemma repr_rt d v b : repr_enc d v = Ok b -> repr_canon d v = true ->
  List.length b = size (es_scalar (repr_rep d)) /\ repr_of d b = Ok v.
Proof.
  destruct d as [d|d], v; cbn [repr_enc repr_canon repr_rep repr_of]; intros H C; try discriminate.
  - match type of H with context [enumdef_dec d ?d'] => destruct (enumdef_dec d d') as [<-|]; [|discriminate] end.
    destruct (to_repr (en_items d) _) as [z|]; [|discriminate]. destruct (in_range (es_scalar (en_rep d)) z) eqn:E; [|discriminate].
    apply Ok_inj in H. subst b. split; [apply scalar_bytes_length|]. rewrite scalar_of_bytes_bytes by exact E.
    destruct (from_repr (en_items d) z) as [y| | |]; try discriminate. apply evariant_eqb_eq in C. subst. reflexivity.
  - match type of H with context [bitsdef_dec d ?d'] => destruct (bitsdef_dec d d') as [<-|]; [|discriminate] end.
    destruct (in_range (es_scalar (bf_rep d)) _) eqn:E; [|discriminate].
    apply Ok_inj in H. subst b. split; [apply scalar_bytes_length|]. rewrite scalar_of_bytes_bytes by exact E.
    revert C. unfold bf_from_repr. destruct (_ =? 0); [reflexivity|discriminate].
Qed.
Lemma prim_size_pos pr : (0 < prim_size pr)%nat.
Proof. destruct pr as [| | |[[] ?]]; cbn; lia. Qed.
Lemma size_pos s : (0 < size s)%nat.
Proof. destruct s; cbn; lia. Qed.

Lemma chunks_concat k bs : Forall (fun b => List.length b = k) bs -> chunks (List.length bs) k (concat bs) = bs.
Proof.
  induction 1 as [|b bs E F IH]; cbn; [reflexivity|]. rewrite firstn_app_exact, skipn_app_exact, IH by assumption. reflexivity.
Qed.
Lemma concat_len k bs : Forall (fun b : list Z => List.length b = k) bs -> List.length (concat bs) = (List.length bs * k)%nat.
Proof. induction 1; cbn; [reflexivity|]. rewrite app_length. lia. Qed.
Lemma mapM_len {E A B} (f : A -> res E B) l r : mapM f l = Ok r -> List.length r = List.length l.
Proof. revert r. induction l as [|x l IH]; cbn; intros r H; [apply Ok_inj in H; subst; reflexivity|]. bi H y Ey. bi H ys Eys. apply Ok_inj in H. subst. cbn. f_equal. auto. Qed.
Lemma mapM_forall {E A B} (f : A -> res E B) (P : B -> Prop) l r : mapM f l = Ok r -> (forall x y, In x l -> f x = Ok y -> P y) -> Forall P r.
Proof.
  revert r. induction l as [|x l IH]; cbn; intros r H HP; [apply Ok_inj in H; subst; constructor|].
  bi H y Ey. bi H ys Eys. apply Ok_inj in H. subst. constructor; eauto.
Qed.
Lemma mapM_back {E A B} (f : A -> res E B) (h : B -> res E A) l r : mapM f l = Ok r -> (forall x y, In x l -> f x = Ok y -> h y = Ok x) -> mapM h r = Ok l.
Proof.
  revert r. induction l as [|x l IH]; cbn; intros r H HP; [apply Ok_inj in H; subst; reflexivity|].
  bi H y Ey. bi H ys Eys. apply Ok_inj in H. subst. cbn. rewrite (HP x y) by auto. cbn [bind]. rewrite (IH ys) by auto. reflexivity.
Qed.
Lemma map_back {E A B} (f : A -> res E B) (h : B -> A) l r : mapM f l = Ok r -> (forall x y, In x l -> f x = Ok y -> h y = x) -> map h r = l.
Proof.
  revert r. induction l as [|x l IH]; cbn; intros r H HP; [apply Ok_inj in H; subst; reflexivity|].
  bi H y Ey. bi H ys Eys. apply Ok_inj in H. subst. cbn. rewrite (HP x y) by auto. rewrite (IH ys) by auto. reflexivity.
Qed.

Lemma prims_rt pr vs bs : mapM (prim_enc pr) vs = Ok bs ->
  Forall (fun b => List.length b = prim_size pr) bs /\ map (prim_of pr) bs = vs /\ List.length bs = List.length vs.
Proof.
  intros H. split; [eapply mapM_forall; [exact H|]; intros; eapply prim_rt; eassumption|].
  split; [eapply map_back; [exact H|]; intros; eapply prim_rt; eassumption|]. eapply mapM_len; eassumption.
Qed.
Lemma reprs_rt d vs bs : mapM (repr_enc d) vs = Ok bs -> forallb (repr_canon d) vs = true ->
  Forall (fun b => List.length b = size (es_scalar (repr_rep d))) bs /\ mapM (repr_of d) bs = Ok vs /\ List.length bs = List.length vs.
Proof.
  intros H C. rewrite forallb_forall in C.
  split; [eapply mapM_forall; [exact H|]; intros; eapply repr_rt; [eassumption|auto]|].
  split; [eapply mapM_back; [exact H|]; intros; eapply repr_rt; [eassumption|auto]|]. eapply mapM_len; eassumption.
Qed.

(** ** Repeated elements *)
Section Elems.
  Variable fe : val -> res ioerr (list Z * val).
  Variable fd : list Z -> res ioerr (val * list Z).
  Hypothesis RT : forall v b rest, fe v = Ok (b, v) -> fd (b ++ rest) = Ok (v, rest).

  Lemma se_times_mapM : forall vs xs, se_times fe (List.length vs) vs = Ok xs -> mapM fe vs = Ok xs.
  Proof.
    induction vs as [|v vs IH]; cbn; intros xs H; [assumption|]. bi H x Ex. bi H ys Ey. rewrite Ex. cbn [bind].
    rewrite (IH _ Ey). assumption.
  Qed.
  Lemma canon_elems vs xs : mapM fe vs = Ok xs -> map snd xs = vs -> Forall2 (fun v x => fe v = Ok (fst x, v) /\ snd x = v) vs xs.
  Proof.
    revert xs. induction vs as [|v vs IH]; cbn; intros xs H E; [apply Ok_inj in H; subst; constructor|].
    bi H x Ex. bi H ys Ey. apply Ok_inj in H. subst xs. cbn in E. injection E as E1 E2. constructor; [|auto].
    destruct x as [b v']. cbn in *. subst. auto.
  Qed.
  Lemma sd_times_rt vs xs rest : mapM fe vs = Ok xs -> map snd xs = vs ->
    sd_times fd (List.length vs) (concat (map fst xs) ++ rest) = Ok (vs, rest).
  Proof.
    intros H E. pose proof (canon_elems _ _ H E) as F. clear H E. induction F as [|v [b v'] vs xs [E1 E2] F IH]; cbn; [reflexivity|].
    cbn in *. subst. rewrite <- app_assoc, (RT _ _ _ E1). cbn [bind]. rewrite IH. reflexivity.
  Qed.
  Lemma sd_all_rt vs xs : mapM fe vs = Ok xs -> map snd xs = vs -> all_nonempty (map fst xs) = true ->
    forall fuel, (List.length (concat (map fst xs)) < fuel)%nat -> sd_all fd fuel (concat (map fst xs)) = Ok vs.
  Proof.
    intros H E. pose proof (canon_elems _ _ H E) as F. clear H E. induction F as [|v [b v'] vs xs [E1 E2] F IH]; cbn; intros N fuel Hf.
    - destruct fuel; [lia|reflexivity].
    - cbn in *. subst. apply andb_true_iff in N as (N1 & N2). destruct fuel as [|fuel]; [lia|]. cbn [sd_all].
      destruct b as [|z b]; [discriminate|]. cbn [app]. change (z :: b ++ concat (map fst xs)) with ((z :: b) ++ concat (map fst xs)). rewrite (RT _ _ _ E1). cbn [bind].
      rewrite app_length in *. cbn [List.length] in *.
      replace (List.length (concat (map fst xs)) <? S (List.length b) + List.length (concat (map fst xs)))%nat with true by (symmetry; apply Nat.ltb_lt; lia).
      rewrite IH; [reflexivity|assumption|lia].
  Qed.
  Lemma zlist_eqb_refl l : zlist_eqb l l = true.
  Proof. induction l; cbn; [reflexivity|]. rewrite Z.eqb_refl. assumption. Qed.
  Lemma sd_until_rt fill term rest vs xs : (forall n, (n <= fill n)%nat) -> mapM fe vs = Ok xs -> map snd xs = vs -> no_term term (map fst xs) = true ->
    forall fuel, (List.length (concat (map fst xs)) < fuel)%nat ->
    sd_until fill term fd fuel ((concat (map fst xs) ++ term) ++ rest) = Ok (vs, rest).
  Proof.
    intros Hfill H E. pose proof (canon_elems _ _ H E) as F. clear H E. induction F as [|v [b v'] vs xs [E1 E2] F IH]; cbn [map concat List.length app fst]; intros N fuel Hf.
    - destruct fuel; [lia|]. cbn [sd_until]. rewrite firstn_all2 by apply Hfill.
      destruct (Nat.eqb_spec (List.length (term ++ rest)) 0) as [E|E].
      { rewrite app_length in E. destruct term; [|cbn in E; lia]. reflexivity. }
      rewrite app_length. destruct (Nat.ltb_spec (List.length term + List.length rest) (List.length term)); [lia|].
      rewrite firstn_app_exact, skipn_app_exact, zlist_eqb_refl by reflexivity. reflexivity.
    - cbn in *. subst. cbn [no_term] in N. rewrite !andb_true_iff in N. destruct N as ((N1 & N2) & N3). destruct fuel as [|fuel]; [lia|]. cbn [sd_until].
      rewrite firstn_all2 by apply Hfill. cbn [concat] in N2. rewrite !app_length in *.
      destruct b as [|z b]; [discriminate|]. cbn [List.length].
      destruct (Nat.eqb_spec (S (List.length b) + List.length (concat (map fst xs)) + List.length term + List.length rest) 0); [lia|].
      destruct (Nat.ltb_spec (S (List.length b) + List.length (concat (map fst xs)) + List.length term + List.length rest) (List.length term)); [lia|].
      rewrite firstn_app.
      replace (List.length term - _)%nat with O by (rewrite !app_length; lia). cbn [firstn]. rewrite app_nil_r.
      apply negb_true_iff in N2. rewrite N2.
      rewrite <- !app_assoc. rewrite (RT _ _ _ E1). cbn [bind]. rewrite !app_length.
      match goal with |- context [if (?a <? ?b)%nat then _ else _] => destruct (Nat.ltb_spec a b) as [_|L]; [|cbn [List.length] in L; lia] end.
      rewrite app_assoc. rewrite IH; [reflexivity|assumption|]. cbn [List.length] in Hf. lia.
  Qed.
End Elems.

Section RT.
  Variable w : world.
  Variable g : good.
  Variable mk : marks.
  Hypothesis Hw : world_laws w g mk.
  Variable p : program.
  Variable rf : nat.
  Variable inputs : string -> option val.
  Variable rec : string -> list val -> list Z -> res ioerr (val * list Z).
  Variable erec : string -> list val -> val -> res ioerr (list Z * val).
  Hypothesis Hrec : forall n vs v b rest, foreign_of p n = None -> erec n vs v = Ok (b, v) -> (mk_ty mk n = true -> rest = []) ->
    rec n vs (b ++ rest) = Ok (v, rest).

  Notation ev := (ev w inputs).
  Notation sd_type := (sd_type w p rf inputs rec).
  Notation sd_complex := (sd_complex w p rf inputs rec).
  Notation sd_field := (sd_field w inputs).
  Notation sd_items := (sd_items w inputs).
  Notation sd_item := (sd_item w p rf inputs rec).
  Notation se_type := (se_type w p rf inputs (Some g) erec).
  Notation se_complex := (se_complex w p rf inputs (Some g) erec).
  Notation se_field := (se_field w inputs (Some g)).
  Notation se_items := (se_items w inputs (Some g)).
  Notation se_item := (se_item w p rf inputs (Some g) erec).
  Notation greedy := (greedy p mk).
  Notation greedy_field := (greedy_field p mk).
  Notation rt_ty := (rt_ty p mk).
  Notation rt_items := (rt_items p mk).

  Lemma refuse_ok {A} b (k : res ioerr A) r : refuse (Some g) b k = Ok r -> b = true /\ k = Ok r.
  Proof. cbn. destruct b; [auto|discriminate]. Qed.

  Lemma ev_sees S en ed e v : sees S en ed -> incl (fv e) S -> ev en e = Ok v -> ev ed e = Ok v.
  Proof.
    intros HS Hi. unfold Spec.ev, eval. apply reval_mono. intros n x Hn Hx. apply rfv_emit in Hn. apply HS; auto.
  Qed.
  Lemma evs_sees S en ed es : sees S en ed -> incl (fvs es) S -> forall vs, mapM (ev en) es = Ok vs -> mapM (ev ed) es = Ok vs.
  Proof.
    intros HS. induction es as [|e es IH]; cbn; intros Hi vs H; [assumption|]. bi H v Ev. bi H ys Eys.
    rewrite (ev_sees S en ed e v HS); [|intros x Hx; apply Hi; apply in_app_iff; auto|assumption]. cbn [bind].
    rewrite (IH (fun x Hx => Hi x (in_or_app _ _ _ (or_intror Hx))) _ Eys). assumption.
  Qed.

  Lemma u8s_back ts bs : mapM (prim_enc (PScalar u8be)) ts = Ok bs -> u8s_of (VArr ts) = Ok (concat bs).
  Proof.
    cbn [u8s_of]. revert bs. induction ts as [|t ts IH]; cbn [mapM]; intros bs H; [apply Ok_inj in H; subst; reflexivity|].
    bi H b Eb. bi H bs' Ebs. apply Ok_inj in H. subst bs. specialize (IH _ Ebs). rewrite IH. clear IH Ebs.
    destruct t; try discriminate. cbn [prim_enc u8be es_scalar] in Eb. destruct (scalar_eqb s U8) eqn:Es; [|discriminate]. cbn [andb] in Eb.
    assert (s = U8) by (destruct s; cbn in Es; congruence). subst s. destruct (in_range U8 z) eqn:E; [|discriminate]. apply Ok_inj in Eb. subst b.
    cbn [bind concat]. f_equal. change (z :: concat bs') with ([z] ++ concat bs'). f_equal.
    assert (X : 0 <= z <= 255) by (apply in_range_iff in E; exact E). unfold scalar_bytes. cbn. rewrite Z.mod_small by lia. reflexivity.
  Qed.

  Lemma se_simple en : forall t v b v', simple p t = true -> se_type en t v = Ok (b, v') -> v' = v.
  Proof.
    induction t using ty_ind'; try (match goal with F : Forall _ _ |- _ => clear F end); intros v b v' Hs H; cbn [Spec.se_type] in H; try discriminate Hs.
    1-4: unfold se_prim in H; bi H x Ex; apply Ok_inj in H; congruence.
    1-2: unfold se_repr in H; bi H x Ex; apply refuse_ok in H as (_ & H); apply Ok_inj in H; congruence.
    - unfold se_foreign in H. bi H x Ex. apply refuse_ok in H as (_ & H). apply Ok_inj in H; congruence.
    - bi H vs Ev. cbn [simple] in Hs. unfold foreign_of in Hs. destruct (p n) as [[a [] ps]|]; try discriminate Hs.
      unfold se_foreign in H. bi H x Ex. apply refuse_ok in H as (_ & H). apply Ok_inj in H; congruence.
    - cbn [simple] in Hs.
      assert (HM : forall vs xs, mapM (se_type en t) vs = Ok xs -> map snd xs = vs).
      { induction vs as [|x vs IH]; cbn [mapM]; intros xs E; [apply Ok_inj in E; subst; reflexivity|]. bi E y Ey. bi E ys Eys. apply Ok_inj in E. subst xs.
        destruct y as [b0 y]. apply IHt in Ey; [|assumption]. subst. cbn. f_equal. auto. }
      unfold se_arr in H. destruct l as [e| |e].
      + bi H nv En. destruct (kind_of (resolved p rf t)) as [pr|d|] eqn:K.
        * assert (X : exists (vs : list val) z bs, (refuse (Some g) ((z =? Z.of_nat (List.length vs)) && fits (prim_size pr) vs) (Ok (concat bs, v)) : res ioerr _) = Ok (b, v')).
          { destruct pr; try discriminate H; bi H vs Ea; bi H z Ez; destruct (z mod 2 ^ 64 =? _); try discriminate; bi H bs Eb; eauto. }
          destruct X as (vs & z & bs & X). apply refuse_ok in X as (_ & X). apply Ok_inj in X. congruence.
        * bi H vs Ea. bi H z Ez. destruct (z mod 2 ^ 64 =? _); try discriminate. bi H bs Eb. apply refuse_ok in H as (_ & H). apply Ok_inj in H. congruence.
        * bi H z Ez. bi H vs Ea. bi H xs Ex. apply refuse_ok in H as (C & H). apply Ok_inj in H. injection H as <- <-.
          apply andb_true_iff in C as (C & _). apply andb_true_iff in C as (C1 & C2). apply Z.eqb_eq in C2. subst z. rewrite Nat2Z.id in Ex. destruct v; try discriminate C1.
          assert (vs = l) by (destruct (_ =? 0)%nat; cbn in Ea; apply Ok_inj in Ea; congruence). subst vs.
          apply se_times_mapM in Ex. apply HM in Ex. congruence.
      + destruct (kind_of (resolved p rf t)) as [pr|d|] eqn:K.
        * destruct pr; try discriminate H; bi H vs Ea; bi H bs Eb; apply Ok_inj in H; congruence.
        * bi H vs Ea. bi H bs Eb. apply refuse_ok in H as (_ & H). apply Ok_inj in H. congruence.
        * bi H vs Ea. bi H xs Ex. apply refuse_ok in H as (_ & H). apply Ok_inj in H. injection H as <- <-. apply HM in Ex.
          destruct v; try discriminate Ea. apply Ok_inj in Ea. congruence.
      + bi H tv Et. bi H vs Ea. bi H xs Ex. bi H ts Ets. bi H bs Eb. apply refuse_ok in H as (_ & H). apply Ok_inj in H. injection H as <- <-. apply HM in Ex.
          destruct v; try discriminate Ea. apply Ok_inj in Ea. congruence.
  Qed.

  (** *** Types *)
  Lemma type_rt tg : forall t c S en ed v b rest, se_type en t v = Ok (b, v) -> rt_ty tg c S t = true -> sees S en ed ->
    (greedy t = true -> rest = []) -> sd_type ed t (b ++ rest) = Ok (v, rest).
  Proof.
    destruct Hw as (Lf & _ & Lfill).
    assert (Hprim : forall pr v b rest, se_prim pr v = Ok (b, v) -> sd_prim pr (b ++ rest) = Ok (v, rest)).
    { intros pr v b rest H. unfold se_prim in H. bi H x Ex. apply Ok_inj in H. injection H as ->. apply prim_rt in Ex as (E1 & E2).
      unfold sd_prim. rewrite read_exact_app by assumption. cbn [bind]. congruence. }
    assert (Hrepr : forall d v b rest, se_repr (Some g) d v = Ok (b, v) -> sd_repr d (b ++ rest) = Ok (v, rest)).
    { intros d v b rest H. unfold se_repr in H. bi H x Ex. apply refuse_ok in H as (C & H). apply Ok_inj in H. injection H as ->. apply repr_rt in Ex as (E1 & E2); [|assumption].
      unfold sd_repr. rewrite read_exact_app by assumption. cbn [bind]. rewrite E2. reflexivity. }
    assert (Hfor : forall f vs v b rest, se_foreign w (Some g) f vs v = Ok (b, v) -> (mk_f mk f = true -> rest = []) -> w_fdec w f vs (b ++ rest) = Ok (v, rest)).
    { intros f vs v b rest H Hg. unfold se_foreign in H. bi H x Ex. apply refuse_ok in H as (C & H). apply Ok_inj in H. injection H as ->. eapply Lf; eauto. }
    induction t using ty_ind'; try (match goal with F : Forall _ _ |- _ => clear F end); intros c S en ed v b rest H Hwf HS Hg; cbn [Spec.se_type Spec.sd_type] in *; try discriminate H; auto.
    - bi H vs Ev. rewrite (evs_sees S en ed args HS (subset_incl _ _ Hwf) _ Ev). cbn [bind]. cbn [RtWf.greedy] in Hg.
      destruct (foreign_of p n) as [f|] eqn:Ef.
      + unfold foreign_of in Ef. destruct (p n) as [[a [] ps]|]; try discriminate Ef. injection Ef as ->. apply Hfor; assumption.
      + assert (H' : erec n vs v = Ok (b, v)) by (unfold foreign_of in Ef; destruct (p n) as [[a [] ps]|]; try discriminate Ef; exact H).
        assert (X := Hrec _ _ _ _ _ Ef H' Hg). unfold foreign_of in Ef; destruct (p n) as [[a [] ps]|]; try discriminate Ef; exact X.
    - cbn [RtWf.rt_ty] in Hwf. rewrite !andb_true_iff in Hwf. destruct Hwf as ((Hng & Hel) & Hfv). apply subset_incl in Hfv. cbn [ty_fv] in Hfv.
      assert (RT : forall v b rest, se_type en t v = Ok (b, v) -> sd_type ed t (b ++ rest) = Ok (v, rest)).
      { intros. eapply IHt; eauto. intros E. rewrite E in Hng. discriminate. }
      unfold se_arr in H. unfold sd_arr. destruct l as [e| |e].
      + bi H nv En. rewrite (ev_sees S en ed e nv HS) by (try assumption; intros x Hx; apply Hfv; apply in_app_iff; auto). cbn [bind].
        assert (Hlen : forall z (l : list val), of_some (vint nv) = Ok z -> z = Z.of_nat (List.length l) -> fits 1 l = true -> len_of nv = Ok (List.length l)).
        { intros z l E -> F. destruct nv as [sc y| | | | | | | | | | | |]; try discriminate. cbn in E. apply Ok_inj in E. subst y. unfold fits in F. apply Z.ltb_lt in F. apply len_of_nat. lia. }
        assert (Hsz : forall z k (l : list val), (0 < k)%nat -> of_some (vint nv) = Ok z -> z = Z.of_nat (List.length l) -> fits k l = true -> arr_size (w_chk w) k nv = Ok (List.length l * k)%nat).
        { intros z k l Hk E -> F. destruct nv as [sc y| | | | | | | | | | | |]; try discriminate. cbn in E. apply Ok_inj in E. subst y. unfold fits in F. apply Z.ltb_lt in F. apply arr_size_nat; [nia|assumption]. }
        destruct (kind_of (resolved p rf t)) as [pr|d|] eqn:K.
        * assert (X : pr <> PBool /\ exists vs z bs, arr_of v = Ok vs /\ of_some (vint nv) = Ok z /\ mapM (prim_enc pr) vs = Ok bs /\ (refuse (Some g) ((z =? Z.of_nat (List.length vs)) && fits (prim_size pr) vs) (Ok (concat bs, v)) : res ioerr _) = Ok (b, v)).
          { destruct pr; try discriminate H; (split; [discriminate|]); bi H vs Ea; bi H z Ez; destruct (z mod 2 ^ 64 =? _); try discriminate; bi H bs Eb; eauto 10. }
          destruct X as (Hpb & vs & z & bs & Ea & Ez & Eb & X). apply refuse_ok in X as (C & X). apply Ok_inj in X. injection X as <-. apply andb_true_iff in C as (C & F). apply Z.eqb_eq in C. pose proof (prim_size_pos pr) as Hk.
          rewrite (Hsz _ _ _ Hk Ez C F). destruct v; try discriminate Ea. apply Ok_inj in Ea. subst l.
          apply prims_rt in Eb as (E1 & E2 & E3).
          assert (Y : read_prims pr (List.length vs * prim_size pr) (concat bs ++ rest) = Ok (VArr vs, rest)).
          { unfold read_prims. rewrite read_exact_app by (rewrite (concat_len _ _ E1), E3; reflexivity). cbn [bind]. rewrite Nat.div_mul by lia. rewrite <- E3, (chunks_concat _ _ E1), E2. reflexivity. }
          destruct pr; cbn [bind]; try exact Y. congruence.
        * bi H vs Ea. bi H z Ez. destruct (z mod 2 ^ 64 =? _); try discriminate. bi H bs Eb. apply refuse_ok in H as (C & H). apply Ok_inj in H. injection H as <-.
          apply andb_true_iff in C as (C1 & C2). apply andb_true_iff in C1 as (C1 & F). apply Z.eqb_eq in C1. pose proof (size_pos (es_scalar (repr_rep d))) as Hk. rewrite (Hsz _ _ _ Hk Ez C1 F). cbn [bind]. destruct v; try discriminate Ea. apply Ok_inj in Ea. subst l.
          apply reprs_rt in Eb as (E1 & E2 & E3); [|assumption]. unfold read_reprs.
          rewrite read_exact_app by (rewrite (concat_len _ _ E1), E3; reflexivity). cbn [bind]. rewrite Nat.div_mul by lia. rewrite <- E3, (chunks_concat _ _ E1), E2. reflexivity.
        * bi H z Ez. bi H vs Ea. bi H xs Ex. apply refuse_ok in H as (C & H). apply Ok_inj in H. injection H as <- Hv.
          apply andb_true_iff in C as (C & F). apply andb_true_iff in C as (C1 & C2). apply Z.eqb_eq in C2. rewrite (Hlen _ _ Ez C2 F). cbn [bind]. rewrite C2, Nat2Z.id in Ex.
          destruct v; try discriminate C1.
          assert (vs = l) by (destruct (_ =? 0)%nat; cbn in Ea; apply Ok_inj in Ea; congruence). subst vs.
          apply se_times_mapM in Ex. injection Hv as Hv. rewrite (sd_times_rt _ _ RT _ _ rest Ex Hv). reflexivity.
      + rewrite (Hg eq_refl). rewrite app_nil_r. destruct (kind_of (resolved p rf t)) as [pr|d|] eqn:K.
        * assert (X : pr <> PBool /\ exists vs bs, arr_of v = Ok vs /\ mapM (prim_enc pr) vs = Ok bs /\ (Ok (concat bs, v) : res ioerr _) = Ok (b, v)).
          { destruct pr; try discriminate H; (split; [discriminate|]); bi H vs Ea; bi H bs Eb; eauto 10. }
          destruct X as (Hpb & vs & bs & Ea & Eb & X). apply Ok_inj in X. injection X as <-.
          destruct v; try discriminate Ea. apply Ok_inj in Ea. subst l.
          apply prims_rt in Eb as (E1 & E2 & E3).
          assert (Y : VArr (map (prim_of pr) (sd_chunks (prim_size pr) (concat bs))) = VArr vs).
          { unfold sd_chunks. rewrite (concat_len _ _ E1), Nat.div_mul by (pose proof (prim_size_pos pr); lia). rewrite (chunks_concat _ _ E1), E2. reflexivity. }
          destruct pr; try rewrite Y; try reflexivity. congruence.
        * bi H vs Ea. bi H bs Eb. apply refuse_ok in H as (C & H). apply Ok_inj in H. injection H as <-.
          destruct v; try discriminate Ea. apply Ok_inj in Ea. subst l. apply reprs_rt in Eb as (E1 & E2 & E3); [|assumption].
          unfold sd_chunks. rewrite (concat_len _ _ E1), Nat.div_mul by (pose proof (size_pos (es_scalar (repr_rep d))); lia). rewrite (chunks_concat _ _ E1), E2. reflexivity.
        * bi H vs Ea. bi H xs Ex. apply refuse_ok in H as (C & H). apply Ok_inj in H. injection H as <- Hv.
          destruct v; try discriminate Ea. apply Ok_inj in Ea. subst l. injection Hv as Hv.
          rewrite (sd_all_rt _ _ RT _ _ Ex Hv C) by lia. reflexivity.
      + bi H tv Et. rewrite (ev_sees S en ed e tv HS) by (try assumption; intros x Hx; apply Hfv; apply in_app_iff; auto). cbn [bind].
        bi H vs Ea. bi H xs Ex. bi H ts Ets. bi H bs Eb. apply refuse_ok in H as (C & H). apply Ok_inj in H. injection H as <- Hv.
        destruct v; try discriminate Ea. apply Ok_inj in Ea. subst l. injection Hv as Hv.
        destruct tv; try discriminate Ets. apply Ok_inj in Ets. subst l. rewrite (u8s_back _ _ Eb). cbn [bind].
        rewrite (sd_until_rt _ _ RT _ _ rest _ _ Lfill Ex Hv C); [reflexivity|]. rewrite !app_length. lia.
  Qed.

  (** *** Transforms *)
  Lemma se_xs_inner {A} en xs (k : res ioerr (list Z * A)) b a : se_xs w inputs (Some g) en xs k = Ok (b, a) -> exists b0, k = Ok (b0, a).
  Proof.
    revert b. induction xs as [|x xs IH]; cbn [se_xs]; intros b H; [eauto|]. bi H c Ec. destruct c; [|eauto].
    bi H vs Ev. bi H ba Eb. destruct ba as [b1 a1]. bi H b2 E2. apply refuse_ok in H as (_ & H). apply Ok_inj in H. injection H as <- <-. eauto.
  Qed.
  Lemma cond_sees S en ed o c : sees S en ed -> incl (fvo o) S ->
    match o with Some e => let! v := ev en e in bool_of v | None => Ok true end = Ok c ->
    match o with Some e => let! v := ev ed e in bool_of v | None => Ok true end = Ok c.
  Proof. intros HS Hi H. destruct o as [e|]; [|assumption]. bi H v Ev. rewrite (ev_sees S en ed e v); auto. Qed.
  Lemma xs_rt {A B} S en ed gt xs (k : res ioerr (list Z * A)) (kd : list Z -> res ioerr (B * list Z)) b a (a' : B) rest :
    (List.length xs <= 1)%nat -> incl (xs_fv xs) S -> sees S en ed ->
    se_xs w inputs (Some g) en xs k = Ok (b, a) ->
    (forall b0 rest, k = Ok (b0, a) -> (gt = true -> rest = []) -> kd (b0 ++ rest) = Ok (a', rest)) ->
    (greedy_with mk gt xs = true -> rest = []) ->
    sd_xs w inputs ed (rev xs) kd (b ++ rest) = Ok (a', rest).
  Proof.
    destruct Hw as (_ & Lx & _). intros L Hi HS H HK Hg. destruct xs as [|x [|? ?]]; [| |cbn in L; lia].
    - cbn in *. auto.
    - cbn [rev app se_xs sd_xs] in *. unfold xs_fv in Hi. cbn [flat_map] in Hi. rewrite app_nil_r in Hi. bi H c Ec.
      rewrite (cond_sees S en ed _ c HS) by (try assumption; intros y Hy; apply Hi; apply in_app_iff; auto). cbn [bind].
      unfold greedy_with in Hg. cbn [existsb forallb] in Hg. destruct c.
      + bi H vs Ev. rewrite (evs_sees S en ed _ HS) with (vs := vs) by (try assumption; intros y Hy; apply Hi; apply in_app_iff; auto). cbn [bind].
        bi H ba Eb. destruct ba as [b1 a1]. bi H b2 E2. apply refuse_ok in H as (C & H). apply Ok_inj in H. injection H as <- <-.
        rewrite (Lx _ _ _ _ _ E2 C); [|intros E; apply Hg; rewrite E; reflexivity]. cbn [bind].
        specialize (HK b1 [] Eb (fun _ => eq_refl)). rewrite app_nil_r in HK. rewrite HK. reflexivity.
      + apply HK; [assumption|]. intros E. apply Hg. destruct (x_cond x); [|discriminate Ec]. rewrite E. cbn. destruct (mk_x mk (x_name x)); reflexivity.
  Qed.

  (** *** Structs.  [F]: the values of the fields; [tg]: they are those of a tagged variant. *)
  Variable tg : bool.
  Variable F : string -> option val.

  Definition lift (c : bool) (v : val) : val := if c then VOpt (Some v) else v.
  Definition canon (c : bool) (vs : vals) : Prop := forall n x, In (n, x) vs -> F n = Some (lift c x).
  Definition raw (en : env) (l : list (fattr * ty)) : Prop := forall n x, In n (noncalc l) -> lookup n en = Some x -> F n = Some x.
  Definition is_blencalc (f : fattr * ty) : bool :=
    leaf f && match fa_calc (fst f) with Some e => match blen_calls e with Some [] => false | _ => true end | None => false end.
  Definition blencalcs (l : list (fattr * ty)) : list string := map (fun f => fa_name (fst f)) (filter is_blencalc l).
  Definition stored (en : env) (l : list (fattr * ty)) : Prop := forall n x, In n (blencalcs l) -> lookup n en = Some x -> tg = true /\ F n = Some x.
  Definition user (n : string) : Prop := String.prefix "__blen_" n = false.
  Definition fresh (S names : list string) : Prop :=
    NoDup names /\ (forall n, In n S -> ~ In n names) /\ (forall n, In n names -> user n) /\ (forall n, In n S -> user n).
  Lemma user_blen n m : user n -> n <> blen_name m.
  Proof. intros H ->. unfold user in H. cbn in H. destruct m; discriminate H. Qed.

  Lemma In_names {A} (f : A -> bool) (h : A -> string) (l : list A) n : In n (map h (filter f l)) <-> exists x, In x l /\ f x = true /\ h x = n.
  Proof.
    rewrite in_map_iff. split.
    - intros (x & E & H). apply filter_In in H as (H1 & H2). eauto.
    - intros (x & H1 & H2 & E). exists x. split; [assumption|]. apply filter_In. auto.
  Qed.
  Lemma NoDup_map_inj {A B} (h : A -> B) l x y : NoDup (map h l) -> In x l -> In y l -> h x = h y -> x = y.
  Proof.
    induction l as [|z l IH]; cbn; intros ND Hx Hy E; [contradiction|]. inversion ND as [|? ? N1 N2]; subst.
    destruct Hx as [->|Hx], Hy as [->|Hy]; auto.
    - exfalso. apply N1. rewrite E. apply in_map. assumption.
    - exfalso. apply N1. rewrite <- E. apply in_map. assumption.
  Qed.
  Lemma leaf_unique l f f' : NoDup (leaf_names l) -> In f l -> In f' l -> leaf f = true -> leaf f' = true -> fa_name (fst f) = fa_name (fst f') -> f = f'.
  Proof.
    intros ND H1 H2 L1 L2 E. unfold leaf_names in ND. eapply (NoDup_map_inj (fun f => fa_name (fst f))); eauto; apply filter_In; auto.
  Qed.
  Lemma lookup_rev_in (vs : vals) ed n x : NoDup (map fst vs) -> In (n, x) vs -> lookup n (rev vs ++ ed) = Some x.
  Proof.
    intros ND Hi. rewrite lookup_app. assert (E : lookup n (rev vs) = Some x).
    { apply lookup_in; [|apply -> in_rev; assumption]. unfold names. rewrite map_rev. apply NoDup_rev. assumption. }
    rewrite E. reflexivity.
  Qed.
  Lemma lookup_rev_out (vs : vals) ed n : ~ In n (map fst vs) -> lookup n (rev vs ++ ed) = lookup n ed.
  Proof.
    intros Hn. rewrite lookup_app. destruct (lookup n (rev vs)) as [x|] eqn:E; [|reflexivity].
    exfalso. apply Hn. apply lookup_some_in in E. apply in_rev in E. apply (in_map fst) in E. assumption.
  Qed.

  Lemma leaf_names_app l1 l2 : leaf_names (l1 ++ l2) = leaf_names l1 ++ leaf_names l2.
  Proof. unfold leaf_names. rewrite filter_app, map_app. reflexivity. Qed.
  Lemma noncalc_leaf l n : In n (noncalc l) -> In n (leaf_names l).
  Proof. unfold noncalc, leaf_names. rewrite !In_names. intros (f & H1 & H2 & H3). apply andb_true_iff in H2. exists f. tauto. Qed.
  Lemma blencalc_leaf l n : In n (blencalcs l) -> In n (leaf_names l).
  Proof. unfold blencalcs, leaf_names. rewrite !In_names. intros (f & H1 & H2 & H3). apply andb_true_iff in H2. exists f. tauto. Qed.
  Lemma flatten_cons f items : flatten_items (f :: items) = flatten_field f ++ flatten_items items.
  Proof. reflexivity. Qed.
  Lemma exports_leaf c : forall t a, incl (exports c a t) (leaf_names (flatten_field (a, t))).
  Proof.
    assert (H0 : forall t a, incl (exports false a t) (leaf_names (flatten_field (a, t)))).
    { induction t using ty_ind'; intros a; unfold flatten_field; cbn [snd is_cont exports];
        try (unfold leaf_names, leaf; cbn [filter map fst snd is_cont]; rewrite orb_false_r; destruct (fa_pad a); cbn; [intros ? []|]; destruct (_ && _); [intros ? []|apply incl_refl]).
      destruct (is_some (fa_cond a)); [intros n Hn; apply noncalc_leaf in Hn; exact Hn|]. rewrite flatten_ty_cont.
      match goal with F : Forall _ _ |- _ => induction F as [|[a' t'] l E F IH] end; [intros ? []|]. cbn [flat_map]. rewrite flatten_cons, leaf_names_app.
      apply incl_app; [apply incl_appl; apply E|apply incl_appr; assumption]. }
    intros t a. destruct c; [|apply H0]. specialize (H0 t a). destruct t; try exact H0. intros ? Hx; destruct Hx.
  Qed.

  Definition cspec (f : fattr * ty) : Prop :=
    let '(a, t) := f in forall c pend S en ed v b vs rest,
    se_complex a t en v c pend = Ok (b, vs) -> rt_ty tg c S t = true -> sees S en ed ->
    (is_cont t = false -> fa_pad a = false -> forall x, In (fa_name a, x) vs -> x = v) ->
    (is_cont t = true -> raw en (flatten_ty t) /\ stored en (flatten_ty t)) -> fresh S (leaf_names (flatten_field (a, t))) ->
    canon c vs ->
    (pend = true -> forall le, cont_len t = Some le -> exists lv, ev ed le = Ok lv /\ limit_of lv = Ok (List.length b)) ->
    (greedy t = true -> rest = []) ->
    sd_complex a t ed (b ++ rest) = Ok (vs, rest) /\ map fst vs = leaf_names (flatten_field (a, t))
    /\ (is_cont t = true -> fa_cond a = None -> c = false -> forall m x, In m (exports false a t) -> lookup m en = Some x -> In (m, x) vs).

  Lemma map_fst_wrap vs : map fst (wrap_some vs) = map fst vs.
  Proof. unfold wrap_some. rewrite map_map. reflexivity. Qed.
  Lemma map_fst_none ns : map fst (all_none ns) = ns.
  Proof. unfold all_none. rewrite map_map. apply map_id. Qed.

  Lemma field_rt a t : cspec (a, t) -> forall c pend S en ed v b vs n rest,
    se_field (se_item (a, t)) en v c pend = Ok (b, (vs, n)) -> field_ok p tg c S a t = true -> rt_ty tg (c || is_some (fa_cond a)) S t = true ->
    sees S en ed ->
    (leaf (a, t) = true -> lookup (fa_name a) en = Some v /\ (fa_calc a = None -> F (fa_name a) = Some (lift c v))) ->
    (is_cont t = true -> raw en (flatten_ty t) /\ stored en (flatten_ty t)) -> fresh S (leaf_names (flatten_field (a, t))) ->
    canon c vs ->
    (pend = true -> forall le, cont_len t = Some le -> exists lv, ev ed le = Ok lv /\ limit_of lv = Ok n) ->
    (greedy_field (a, t) = true -> rest = []) ->
    sd_field (sd_item (a, t)) ed (b ++ rest) = Ok (vs, rest) /\ map fst vs = leaf_names (flatten_field (a, t))
    /\ (forall m x, In m (exports c a t) -> lookup m en = Some x -> In (m, x) vs).
  Proof.
    intros HC c pend S en ed v b vs n rest H Hf Hwf HS Hl Hr Hfr Hcan Hpend Hg.
    unfold field_ok in Hf. rewrite !andb_true_iff in Hf. destruct Hf as (((((F1 & F2) & F3) & F4) & F5) & F6).
    apply subset_incl in F1. apply Nat.leb_le in F2. apply negb_true_iff in F3, F4, F6.
    assert (Fx : incl (xs_fv (fa_xs a)) S) by (intros y Hy; apply F1; apply in_app_iff; auto).
    unfold Spec.se_field, Spec.se_item, Spec.sd_field, Spec.sd_item in *. cbn [fst snd] in *.
    (* contents at a level, with or without the field's own condition *)
    assert (Body : forall rv c' b0 vs0 n0, (c' = c || is_some (fa_cond a)) ->
      se_xs w inputs (Some g) en (fa_xs a) (let! v := rv in let! (b, vs) := se_complex a t en v c' pend in Ok (b, (vs, List.length b))) = Ok (b0, (vs0, n0)) ->
      (forall v0, rv = Ok v0 -> is_cont t = false -> fa_pad a = false -> forall x, In (fa_name a, x) vs0 -> x = v0) ->
      canon c' vs0 -> (pend = true -> forall le, cont_len t = Some le -> exists lv, ev ed le = Ok lv /\ limit_of lv = Ok n0) ->
      sd_xs w inputs ed (rev (fa_xs a)) (sd_complex a t ed) (b0 ++ rest) = Ok (vs0, rest) /\ map fst vs0 = leaf_names (flatten_field (a, t))
      /\ (is_cont t = true -> fa_cond a = None -> c' = false -> forall m x, In m (exports false a t) -> lookup m en = Some x -> In (m, x) vs0)
      /\ (is_cont t = false -> fa_pad a = false -> exists v0 v1 b1, rv = Ok v0 /\ vs0 = [(fa_name a, v1)] /\ se_type en t v0 = Ok (b1, v1))).
    { intros rv c' b0 vs0 n0 Ec' X Hv Hc' Hp0.
      destruct (se_xs_inner _ _ _ _ _ X) as (b1 & Ek). bi Ek v0 Ev0. bi Ek bv Ebv. destruct bv as [b2 vs2]. apply Ok_inj in Ek. injection Ek as <- <- <-.
      subst c'. unfold cspec in HC.
      assert (HC' : forall rest', (greedy t = true -> rest' = []) -> _) by
        (intros rest' Hgr; exact (HC _ _ _ _ _ _ _ _ rest' Ebv Hwf HS (Hv _ Ev0) Hr Hfr Hc' Hp0 Hgr)).
      destruct (HC' [] (fun _ => eq_refl)) as (_ & N & Ex). split; [|split; [assumption|split; [assumption|]]].
      - eapply (xs_rt S en ed (greedy t)); eauto. intros b3 rest' E3 Hgr. rewrite Ev0 in E3. cbn [bind] in E3. rewrite Ebv in E3. cbn [bind] in E3.
        apply Ok_inj in E3. injection E3 as <-. apply HC'. assumption.
      - intros Hc Hpd. clear HC HC'. destruct t; try discriminate Hc; cbn [Spec.se_complex] in Ebv; rewrite Hpd in Ebv;
          bi Ebv y Ey; destruct y as [b3 y]; apply Ok_inj in Ebv; injection Ebv as <- <-; eauto 8. }
    destruct (fa_cond a) as [e|] eqn:Ec; cbn [is_some] in *.
    - rewrite andb_true_r in F3, F4. subst c. cbn [orb] in *. rewrite F4.
      bi H cv Ecv. rewrite (ev_sees S en ed e cv HS) by (try assumption; intros y Hy; apply F1; apply in_app_iff; auto). cbn [bind].
      bi H cb Ecb. rewrite Ecb. cbn [bind]. destruct cb.
      + bi H y Ey. destruct y as [b0 [vs0 n0]]. apply Ok_inj in H. injection H as <- <- <-.
        assert (Hcan' : canon true vs0).
        { intros m x Hm. apply (Hcan m (VOpt (Some x))). unfold wrap_some. apply (in_map (fun nv => (fst nv, VOpt (Some (snd nv)))) _ _ Hm). }
        assert (HV : forall v0, (if negb (is_cont t) && negb (is_some (fa_calc a)) && negb (fa_pad a) then unwrap_opt v else Ok v) = Ok v0 ->
          is_cont t = false -> fa_pad a = false -> forall x, In (fa_name a, x) vs0 -> x = v0).
        { intros v0 E0 Hc Hpd x Hx. rewrite Hc, Hpd in E0. cbn [negb andb] in E0. rewrite andb_true_r in E0.
          destruct (fa_calc a) as [ce|] eqn:Eca; cbn [is_some negb] in E0.
          - apply Ok_inj in E0. subst v0. cbn [is_some negb orb] in F5. apply andb_true_iff in F5 as (F5 & _). destruct (se_xs_inner _ _ _ _ _ Ey) as (b1 & Ek).
            rewrite Hc, Hpd in Ek. cbn [negb andb is_some bind] in Ek. bi Ek bv Ebv. destruct bv as [b2 vs2]. apply Ok_inj in Ek. injection Ek as _ <- _.
            destruct t; try discriminate Hc; cbn [Spec.se_complex] in Ebv; rewrite Hpd in Ebv; bi Ebv y Ey'; destruct y as [b3 y];
              apply Ok_inj in Ebv; injection Ebv as <- <-; destruct Hx as [Hx|[]]; injection Hx as <-; eapply se_simple; eassumption.
          - destruct (Hl ltac:(unfold leaf; cbn [fst snd]; rewrite Hc, Hpd; reflexivity)) as (_ & HF). specialize (HF eq_refl). cbn [lift] in HF.
            pose proof (Hcan' _ _ Hx) as HF'. rewrite HF in HF'. injection HF' as ->. cbn in E0. apply Ok_inj in E0. auto. }
        destruct (Body _ true _ _ _ eq_refl Ey HV Hcan' Hpend) as (D & N & _ & Lf). rewrite D. cbn [bind].
        split; [reflexivity|]. split; [rewrite map_fst_wrap; assumption|].
        intros m x Hm Hx. assert (Hm' : In m (map fst (wrap_some vs0))) by (rewrite map_fst_wrap, N; apply (exports_leaf false); assumption).
        apply in_map_iff in Hm' as ([m' y] & E & Hy). cbn in E. subst m'.
        pose proof (Hcan _ _ Hy) as HFy. cbn [lift] in HFy.
        destruct (is_cont t) eqn:Hct.
        * destruct (Hr eq_refl) as (Rw & _). destruct t; try discriminate Hct. cbn [exports] in Hm. rewrite Ec in Hm. cbn [is_some] in Hm.
          rewrite (Rw _ _ Hm Hx) in HFy. injection HFy as <-. assumption.
        * assert (Hm2 : fa_calc a = None /\ fa_pad a = false /\ m = fa_name a).
          { destruct t; try discriminate Hct; cbn [exports] in Hm; rewrite F4, Ec in Hm; cbn [is_some orb] in Hm; rewrite andb_true_r in Hm;
              destruct (fa_calc a); cbn in Hm; try contradiction; destruct Hm as [<-|[]]; auto. }
          destruct Hm2 as (Hca & Hpd & ->). destruct (Hl ltac:(unfold leaf; cbn [fst snd]; rewrite Hct, Hpd; reflexivity)) as (HL & HF). specialize (HF Hca).
          cbn [lift] in HF. rewrite HF in HFy. injection HFy as <-. rewrite HL in Hx. injection Hx as <-. assumption.
      + apply Ok_inj in H. injection H as <- <- <-. cbn [app]. split; [reflexivity|]. split; [apply map_fst_none|].
        intros m x Hm Hx. assert (Hm' : In m (leaf_names (flatten_field (a, t)))) by (apply (exports_leaf false); assumption).
        assert (Hy : In (m, VOpt None) (all_none (leaf_names (flatten_field (a, t))))) by (apply (in_map (fun n => (n, VOpt None)) _ _ Hm')).
        pose proof (Hcan _ _ Hy) as HFy. cbn [lift] in HFy.
        destruct (is_cont t) eqn:Hct.
        * destruct (Hr eq_refl) as (Rw & _). destruct t; try discriminate Hct. cbn [exports] in Hm. rewrite Ec in Hm. cbn [is_some] in Hm.
          rewrite (Rw _ _ Hm Hx) in HFy. injection HFy as ->. assumption.
        * assert (Hm2 : fa_calc a = None /\ fa_pad a = false /\ m = fa_name a).
          { destruct t; try discriminate Hct; cbn [exports] in Hm; rewrite F4, Ec in Hm; cbn [is_some orb] in Hm; rewrite andb_true_r in Hm;
              destruct (fa_calc a); cbn in Hm; try contradiction; destruct Hm as [<-|[]]; auto. }
          destruct Hm2 as (Hca & Hpd & ->). destruct (Hl ltac:(unfold leaf; cbn [fst snd]; rewrite Hct, Hpd; reflexivity)) as (HL & HF). specialize (HF Hca).
          cbn [lift] in HF. rewrite HF in HFy. injection HFy as ->. rewrite HL in Hx. injection Hx as <-. assumption.
    - rewrite orb_false_r in Body.
      assert (HV : forall v0, Ok v = Ok v0 :> res ioerr val -> is_cont t = false -> fa_pad a = false -> forall x, In (fa_name a, x) vs -> x = v0).
      { intros v0 E0 Hc Hpd x Hx. apply Ok_inj in E0. subst v0.
        destruct (fa_calc a) as [ce|] eqn:Eca.
        - cbn [is_some negb orb] in F5. apply andb_true_iff in F5 as (F5 & _). destruct (se_xs_inner _ _ _ _ _ H) as (b1 & Ek). cbn [bind] in Ek. bi Ek bv Ebv. destruct bv as [b2 vs2]. apply Ok_inj in Ek. injection Ek as _ <- _.
          destruct t; try discriminate Hc; cbn [Spec.se_complex] in Ebv; rewrite Hpd in Ebv; bi Ebv y Ey'; destruct y as [b3 y];
            apply Ok_inj in Ebv; injection Ebv as <- <-; destruct Hx as [Hx|[]]; injection Hx as <-; eapply se_simple; eassumption.
        - destruct (Hl ltac:(unfold leaf; cbn [fst snd]; rewrite Hc, Hpd; reflexivity)) as (_ & HF). specialize (HF eq_refl).
          pose proof (Hcan _ _ Hx) as HF'. rewrite HF in HF'. injection HF' as E. destruct c; cbn in E; congruence. }
      destruct (Body _ c _ _ _ eq_refl H HV Hcan Hpend) as (D & N & Ex & Lf).
      split; [exact D|]. split; [assumption|].
      intros m x Hm Hx. destruct (is_cont t) eqn:Hct.
      * destruct c; [destruct t; try discriminate Hct; contradiction Hm|]. auto.
      * destruct (fa_pad a) eqn:Hpd.
        { destruct t; try discriminate Hct; cbn [exports] in Hm; rewrite Hpd in Hm; contradiction Hm. }
        destruct (Lf eq_refl eq_refl) as (v0 & v1 & b1 & E0 & -> & _). apply Ok_inj in E0. subst v0.
        assert (m = fa_name a).
        { destruct t; try discriminate Hct; cbn [exports] in Hm; rewrite Hpd, Ec in Hm; cbn [is_some orb] in Hm; rewrite andb_false_r in Hm; destruct Hm as [<-|[]]; reflexivity. }
        subst m. destruct (Hl ltac:(unfold leaf; cbn [fst snd]; rewrite Hct, Hpd; reflexivity)) as (HL & _). rewrite HL in Hx. injection Hx as <-.
        rewrite (HV v eq_refl eq_refl eq_refl v1 (or_introl eq_refl)). left. reflexivity.
  Qed.

  Definition direct (c : bool) (en : env) (items : list (fattr * ty)) : Prop :=
    forall f x, In f items -> leaf f = true -> fa_calc (fst f) = None -> lookup (fa_name (fst f)) en = Some x -> F (fa_name (fst f)) = Some (lift c x).
  Definition rawin (en : env) (items : list (fattr * ty)) : Prop :=
    forall f, In f items -> is_cont (snd f) = true -> raw en (flatten_ty (snd f)).
  Definition iexports (c : bool) (items : list (fattr * ty)) : list string := flat_map (fun f => exports c (fst f) (snd f)) items.

  Lemma fresh_cons S f its c : fresh S (leaf_names (flatten_items (f :: its))) ->
    fresh S (leaf_names (flatten_field f)) /\ fresh (S ++ exports c (fst f) (snd f)) (leaf_names (flatten_items its))
    /\ (forall n, In n (leaf_names (flatten_field f)) -> ~ In n (leaf_names (flatten_items its))).
  Proof.
    rewrite flatten_cons, leaf_names_app. intros (A1 & A2 & A3 & A4). apply NoDup_app_inv in A1 as (B1 & B2 & B3).
    split; [|split; [|assumption]].
    - split; [assumption|]. split; [intros n Hn Hi; apply (A2 n Hn); apply in_app_iff; auto|]. split; [intros n Hn; apply A3; apply in_app_iff; auto|assumption].
    - assert (E : forall n, In n (exports c (fst f) (snd f)) -> In n (leaf_names (flatten_field f))) by (intros n Hn; apply exports_leaf in Hn; destruct f; exact Hn).
      split; [assumption|]. split.
      + intros n Hn Hi. apply in_app_iff in Hn as [Hn|Hn]; [apply (A2 n Hn); apply in_app_iff; auto|]. apply (B3 n); auto.
      + split; [intros n Hn; apply A3; apply in_app_iff; auto|]. intros n Hn. apply in_app_iff in Hn as [Hn|Hn]; [auto|]. apply A3. apply in_app_iff. auto.
  Qed.
  Lemma canon_app c a b : canon c (a ++ b) -> canon c a /\ canon c b.
  Proof. intros H. split; intros n x Hx; apply H; apply in_app_iff; auto. Qed.
  Lemma stored_cons en f its : stored en (flatten_items (f :: its)) -> stored en (flatten_field f) /\ stored en (flatten_items its).
  Proof.
    rewrite flatten_cons. unfold stored, blencalcs. rewrite filter_app, map_app. intros H. split; intros n x Hn; apply H; apply in_app_iff; auto.
  Qed.

  (* the state of the reader after a field *)
  Lemma sees_after c S en ed f vs : sees S en ed -> fresh S (leaf_names (flatten_field f)) -> map fst vs = leaf_names (flatten_field f) ->
    (forall m x, In m (exports c (fst f) (snd f)) -> lookup m en = Some x -> In (m, x) vs) ->
    sees (S ++ exports c (fst f) (snd f)) en (rev vs ++ ed).
  Proof.
    intros HS (A1 & A2 & _) N Ex n v Hn Hv. apply in_app_iff in Hn as [Hn|Hn].
    - rewrite lookup_rev_out; [apply HS; assumption|]. rewrite N. apply A2. assumption.
    - apply lookup_rev_in; [rewrite N; assumption|]. apply Ex; assumption.
  Qed.

  Lemma se_items_cons a t k its en cond out vs0 wt : se_items ((a, t, k) :: its) en cond out vs0 wt =
    let f := (a, t, k) in
    let plain :=
          let! v := (if is_cont t || fa_pad a then Ok (VBool false) else of_some (lookup (fa_name a) en)) in
          let pend := match wt with Some x => String.eqb (wt_on x) (fa_name a) | None => false end in
          let! (b, (vs, n)) := se_field f en v cond pend in
          match wt with
          | None => se_items its en cond (out ++ b) (vs0 ++ vs) None
          | Some x =>
              if pend && is_some (cont_len t) then
                let en' := (blen_name (fa_name a), VInt U64 (Z.of_nat n)) :: en in
                let! e' := of_some (rewrite_blen [wt_on x] (wt_calc x)) in
                let! cv := ev en' e' in
                let en'' := (fa_name (fst (fst (wt_item x))), cv) :: en' in
                let! (b0, (vs1, _)) := se_field (wt_item x) en'' cv cond false in
                let next := se_items its en'' cond (out ++ b0 ++ wt_bytes x ++ b) (vs0 ++ vs1 ++ wt_vals x ++ vs) None in
                match cont_len t with
                | Some le =>
                    let! lv := ev en'' le in
                    let! lim := limit_of lv in
                    if (lim =? n)%nat then next else Err EEncode
                | _ => next
                end
              else se_items its en cond out vs0
                     (Some {| wt_on := wt_on x; wt_item := wt_item x; wt_calc := wt_calc x;
                              wt_bytes := wt_bytes x ++ b; wt_vals := wt_vals x ++ vs |})
          end in
        match fa_calc a with
        | Some e =>
            match blen_calls e with
            | Some [] => plain
            | Some [c] =>
                match wt with
                | None => se_items its en cond out vs0
                            (Some {| wt_on := c; wt_item := f; wt_calc := e; wt_bytes := []; wt_vals := [] |})
                | Some _ => Panic
                end
            | _ => Panic
            end
        | None => plain
        end.
  Proof. reflexivity. Qed.

  Definition after (c : bool) (S : list string) (en : env) (its : list (fattr * ty)) (b : list Z) (vs : vals) (P : env -> Prop) : Prop :=
    canon c vs -> forall ed rest, sees S en ed -> P ed -> (existsb greedy_field its = true -> rest = []) ->
      sd_items (map sd_item its) ed (b ++ rest) = Ok (vs, rest) /\ map fst vs = leaf_names (flatten_items its)
      /\ (forall m x, In m (iexports c its) -> lookup m en = Some x -> In (m, x) vs).

  Lemma lookup_ext (n f0 bn : string) (cv ml : val) (en : env) : n <> f0 -> n <> bn -> lookup n ((f0, cv) :: (bn, ml) :: en) = lookup n en.
  Proof.
    intros H1 H2. rewrite !lookup_cons. destruct (String.eqb_spec f0 n); [congruence|]. destruct (String.eqb_spec bn n); [congruence|]. reflexivity.
  Qed.

  Lemma combine_rt c S en en2 ed a t its b1 vs1 b vs rest (P : env -> Prop) :
    (forall rest', (greedy_field (a, t) = true -> rest' = []) ->
       sd_field (sd_item (a, t)) ed (b1 ++ rest') = Ok (vs1, rest') /\ map fst vs1 = leaf_names (flatten_field (a, t))
       /\ (forall m x, In m (exports c a t) -> lookup m en = Some x -> In (m, x) vs1)) ->
    match its with [] => true | _ => negb (greedy_field (a, t)) end = true ->
    after c (S ++ exports c a t) en2 its b vs P -> canon c vs ->
    sees (S ++ exports c a t) en2 (rev vs1 ++ ed) -> P (rev vs1 ++ ed) ->
    (forall m x, In m (iexports c its) -> lookup m en = Some x -> lookup m en2 = Some x) ->
    (existsb greedy_field ((a, t) :: its) = true -> rest = []) ->
    sd_items (map sd_item ((a, t) :: its)) ed ((b1 ++ b) ++ rest) = Ok (vs1 ++ vs, rest)
    /\ map fst (vs1 ++ vs) = leaf_names (flatten_items ((a, t) :: its))
    /\ (forall m x, In m (iexports c ((a, t) :: its)) -> lookup m en = Some x -> In (m, x) (vs1 ++ vs)).
  Proof.
    intros FR W3 Af Hcan HS HP Hex Hg.
    destruct (FR [] (fun _ => eq_refl)) as (_ & N1 & E1).
    assert (Hg2 : existsb greedy_field its = true -> rest = []) by (intros E; apply Hg; cbn [existsb]; rewrite E; apply orb_true_r).
    destruct (Af Hcan _ rest HS HP Hg2) as (D2 & N2 & E2).
    destruct (FR (b ++ rest)) as (D1 & _ & _).
    { intros E. destruct its as [|i its'].
      - cbn in D2. apply Ok_inj in D2. injection D2 as _ D2. rewrite D2. apply Hg. cbn [existsb]. rewrite E. reflexivity.
      - rewrite E in W3. discriminate. }
    split; [|split].
    - cbn [map Spec.sd_items]. rewrite <- app_assoc, D1. cbn [bind]. rewrite D2. reflexivity.
    - rewrite map_app, N1, N2, flatten_cons, leaf_names_app. reflexivity.
    - intros m x Hm Hx. unfold iexports in Hm. cbn [flat_map fst snd] in Hm. apply in_app_iff. apply in_app_iff in Hm as [Hm|Hm]; [left; auto|right; auto].
  Qed.

  Lemma items_rt its : Forall cspec its -> forall c S en out vs0 wt B V,
    se_items (map se_item its) en c out vs0 wt = Ok (B, V) -> rt_items tg c S its = true ->
    direct c en its -> rawin en its -> stored en (flatten_items its) -> fresh S (leaf_names (flatten_items its)) ->
    match wt with
    | None => exists b vs, B = out ++ b /\ V = vs0 ++ vs /\ after c S en its b vs (fun _ => True)
    | Some x => forall f0, wt_item x = se_item f0 -> ~ In (fa_name (fst f0)) (leaf_names (flatten_items its)) ->
        exists b0 vs1 n0 cv ml b vs, B = out ++ b0 ++ wt_bytes x ++ b /\ V = vs0 ++ vs1 ++ wt_vals x ++ vs
          /\ se_field (se_item f0) ((fa_name (fst f0), cv) :: (blen_name (wt_on x), ml) :: en) cv c false = Ok (b0, (vs1, n0))
          /\ after c S en its b vs (fun ed => In (fa_name (fst f0)) S -> lookup (fa_name (fst f0)) ed = Some cv)
    end.
  Proof.
    induction its as [|[a t] its IH]; intros HC c S en out vs0 wt B V H Hwf Hd Hr Hst Hfr.
    - cbn in H. destruct wt; [discriminate|]. apply Ok_inj in H. injection H as <- <-. exists [], []. rewrite !app_nil_r. split; [reflexivity|]. split; [reflexivity|].
      intros _ ed rest _ _ _. cbn. split; [reflexivity|]. split; [reflexivity|]. intros ? ? [].
    - inversion HC as [|? ? HCf HCs]; subst. cbn [rt_items] in Hwf. rewrite !andb_true_iff in Hwf. destruct Hwf as (((W1 & W2) & W3) & W4).
      destruct (fresh_cons _ _ _ c Hfr) as (Fr1 & Fr2 & Fr3). cbn [fst snd] in Fr2.
      destruct (stored_cons _ _ _ Hst) as (St1 & St2).
      assert (Hd2 : direct c en its) by (intros f x Hf; apply Hd; right; assumption).
      assert (Hr2 : rawin en its) by (intros f Hf; apply Hr; right; assumption).
      assert (Hrt : is_cont t = true -> raw en (flatten_ty t) /\ stored en (flatten_ty t)).
      { intros Ht. split; [apply (Hr (a, t)); [left; reflexivity|assumption]|]. unfold flatten_field in St1. cbn [snd] in St1. rewrite Ht in St1. assumption. }
      cbn [map] in H. change (se_item (a, t)) with (a, t, se_complex a t) in H. rewrite se_items_cons in H. cbv zeta in H. change (a, t, se_complex a t) with (se_item (a, t)) in H.
      (* values of leaves *)
      assert (Hlf : forall v, (if is_cont t || fa_pad a then Ok (VBool false) else of_some (lookup (fa_name a) en)) = Ok v ->
        leaf (a, t) = true -> lookup (fa_name a) en = Some v /\ (fa_calc a = None -> F (fa_name a) = Some (lift c v))).
      { intros v E L. pose proof L as L'. unfold leaf in L. cbn [fst snd] in L. apply negb_true_iff in L. rewrite orb_comm in L. rewrite L in E. destruct (lookup (fa_name a) en) as [y|] eqn:El; [|discriminate].
        apply Ok_inj in E. subst y. split; [reflexivity|]. intros Hca. apply (Hd (a, t)); auto. left. reflexivity. }
      set (plain := bind (if is_cont t || fa_pad a then Ok (VBool false) else of_some (lookup (fa_name a) en)) _) in H.
      assert (Plain : plain = Ok (B, V) ->
         match wt with
          | Some x => forall f0, wt_item x = se_item f0 -> ~ In (fa_name (fst f0)) (leaf_names (flatten_items ((a, t) :: its))) ->
              exists b0 vs1 n0 cv ml b vs, B = out ++ b0 ++ wt_bytes x ++ b /\ V = vs0 ++ vs1 ++ wt_vals x ++ vs
                /\ se_field (se_item f0) ((fa_name (fst f0), cv) :: (blen_name (wt_on x), ml) :: en) cv c false = Ok (b0, (vs1, n0))
                /\ after c S en ((a, t) :: its) b vs (fun ed => In (fa_name (fst f0)) S -> lookup (fa_name (fst f0)) ed = Some cv)
          | None => exists b vs, B = out ++ b /\ V = vs0 ++ vs /\ after c S en ((a, t) :: its) b vs (fun _ => True)
          end).
      2:{ destruct (fa_calc a) as [e|] eqn:Eca; [|apply Plain; exact H].
        destruct (blen_calls e) as [[|cn [|? ?]]|] eqn:Eb; try discriminate H; [apply Plain; exact H|].
        destruct wt; [discriminate|]. clear Plain plain.
        assert (Hct : is_cont t = false /\ fa_pad a = false).
        { unfold field_ok in W1. rewrite Eca, !andb_true_iff in W1. destruct W1 as ((_ & W1) & _). cbn [is_some negb orb] in W1. apply andb_true_iff in W1 as (X & Y).
          split; [destruct t; try reflexivity; discriminate X|apply negb_true_iff; assumption]. }
        destruct Hct as (Hct & Hpd).
        assert (Hnm : In (fa_name a) (leaf_names (flatten_field (a, t)))).
        { unfold flatten_field, leaf_names, leaf. cbn [snd]. rewrite Hct. cbn [filter fst snd]. rewrite Hpd, Hct. left. reflexivity. }
        apply IH with (S := S ++ exports c a t) in H; try assumption.
        destruct (H (a, t)) as (b0 & vs1 & n0 & cv & ml & b & vs & -> & -> & Ef & Af); [reflexivity| |].
        { cbn [fst]. apply Fr3. apply Hnm. }
        cbn [wt_bytes wt_vals app fst wt_on] in *. exists (b0 ++ b), (vs1 ++ vs). split; [reflexivity|]. split; [reflexivity|].
        intros Hcan ed rest HS _ Hg. apply canon_app in Hcan as (Hcan1 & Hcan2).
        assert (Hne : forall n, In n S -> n <> fa_name a) by (intros n Hn ->; destruct Fr1 as (_ & A2 & _); apply (A2 _ Hn); assumption).
        assert (HS1 : sees S ((fa_name a, cv) :: (blen_name cn, ml) :: en) ed).
        { intros n x Hn Hx. rewrite lookup_ext in Hx; [apply HS; assumption|apply Hne; assumption|apply user_blen; apply Fr1; assumption]. }
        assert (FR := fun rest' => field_rt a t HCf c false S _ ed cv b0 vs1 n0 rest' Ef W1 W2 HS1).
        assert (FR' : forall rest', (greedy_field (a, t) = true -> rest' = []) ->
          sd_field (sd_item (a, t)) ed (b0 ++ rest') = Ok (vs1, rest') /\ map fst vs1 = leaf_names (flatten_field (a, t))
          /\ (forall m x, In m (exports c a t) -> lookup m ((fa_name a, cv) :: (blen_name cn, ml) :: en) = Some x -> In (m, x) vs1)).
        { intros rest' Hg'. apply FR; try assumption.
          - intros _. split; [rewrite lookup_cons, String.eqb_refl; reflexivity|]. rewrite Eca. discriminate.
          - intros Ht. congruence.
          - discriminate. }
        clear FR. destruct (FR' [] (fun _ => eq_refl)) as (_ & N1 & E1).
        assert (Hcv : In (fa_name a) (exports c a t) -> In (fa_name a, cv) vs1).
        { intros Hn. apply E1; [assumption|]. rewrite lookup_cons, String.eqb_refl. reflexivity. }
        assert (Hexp : forall m, In m (exports c a t) -> m = fa_name a).
        { intros m Hm. assert (Hm2 : In m (if fa_pad a || (is_some (fa_calc a) && is_some (fa_cond a)) then [] else [fa_name a])) by (destruct t; try discriminate Hct; exact Hm).
          destruct (fa_pad a || _); [contradiction|]. destruct Hm2 as [<-|[]]. reflexivity. }
        assert (E1' : forall m x, In m (exports c a t) -> lookup m en = Some x -> In (m, x) vs1).
        { intros m x Hm Hx. pose proof (Hexp _ Hm). subst m.
          destruct (St1 (fa_name a) x) as (Htg & HF); [|assumption|].
          { unfold blencalcs. apply In_names. exists (a, t). unfold flatten_field. cbn [snd]. rewrite Hct. split; [left; reflexivity|]. split; [|reflexivity].
            unfold is_blencalc, leaf. cbn [fst snd]. rewrite Hct, Hpd, Eca, Eb. reflexivity. }
          pose proof (Hcan1 _ _ (Hcv Hm)) as HF2. rewrite HF in HF2. injection HF2 as ->.
          assert (c = false). { unfold field_ok in W1. rewrite !andb_true_iff in W1. destruct W1 as (_ & W1). rewrite Htg, Eca in W1. destruct c; [discriminate|reflexivity]. }
          subst c. cbn [lift]. auto. }
        eapply combine_rt with (en2 := en); try eassumption.
        + intros rest' Hg'. destruct (FR' rest' Hg') as (X1 & X2 & _). auto.
        + eapply (sees_after c S en ed (a, t)); eassumption.
        + cbn beta. intros Hn. apply in_app_iff in Hn as [Hn|Hn]; [exfalso; apply (Hne _ Hn); reflexivity|].
          apply lookup_rev_in; [rewrite N1; apply Fr1|auto].
        + auto. }
      (* an ordinary field *)
      intros Hpl. unfold plain in Hpl. clear plain H. bi Hpl v Ev. cbv zeta in Hpl. bi Hpl bvn Ebv. destruct bvn as [b1 [vs1 n1]].
      assert (FR : forall ed, sees S en ed -> canon c vs1 ->
         (match wt with Some x => String.eqb (wt_on x) (fa_name a) | None => false end = true -> forall le, cont_len t = Some le -> exists lv, ev ed le = Ok lv /\ limit_of lv = Ok n1) ->
         forall rest', (greedy_field (a, t) = true -> rest' = []) ->
          sd_field (sd_item (a, t)) ed (b1 ++ rest') = Ok (vs1, rest') /\ map fst vs1 = leaf_names (flatten_field (a, t))
          /\ (forall m x, In m (exports c a t) -> lookup m en = Some x -> In (m, x) vs1)).
      { intros ed HS Hcan Hpe rest' Hg'. eapply (field_rt a t HCf); eauto. }
      destruct wt as [x|].
      2:{ apply IH with (S := S ++ exports c a t) in Hpl; try assumption. destruct Hpl as (b & vs & -> & -> & Af).
        exists (b1 ++ b), (vs1 ++ vs). rewrite !app_assoc. split; [reflexivity|]. split; [reflexivity|].
        intros Hcan ed rest HS _ Hg. apply canon_app in Hcan as (Hcan1 & Hcan2).
        assert (FR' := FR ed HS Hcan1 ltac:(discriminate)). clear FR. destruct (FR' [] (fun _ => eq_refl)) as (_ & N1 & E1).
        eapply combine_rt with (en2 := en); try eassumption; auto. { eapply (sees_after c S en ed (a, t)); eassumption. } exact I. }
      intros f0 Ef0 Hf0. rewrite flatten_cons, leaf_names_app in Hf0.
      assert (Hf0a : ~ In (fa_name (fst f0)) (leaf_names (flatten_field (a, t)))) by (intros X; apply Hf0; apply in_app_iff; auto).
      assert (Hf0b : ~ In (fa_name (fst f0)) (leaf_names (flatten_items its))) by (intros X; apply Hf0; apply in_app_iff; auto).
      destruct (String.eqb (wt_on x) (fa_name a) && is_some (cont_len t)) eqn:Epd.
      + apply andb_true_iff in Epd as (Epd & Ecl). destruct (cont_len t) as [le|] eqn:Ele; [|discriminate]. apply String.eqb_eq in Epd.
        bi Hpl e' Ee'. bi Hpl cv Ecv. bi Hpl z Ez. destruct z as [b0 [vs2 n2]]. bi Hpl lv Elv. bi Hpl lim Elim.
        destruct (Nat.eqb_spec lim n1) as [->|]; [|discriminate]. rewrite <- Epd in *.
        assert (Efn : fst (fst (wt_item x)) = fst f0) by (rewrite Ef0; reflexivity). rewrite Efn in *. rewrite Ef0 in Ez.
        set (en2 := (fa_name (fst f0), cv) :: (blen_name (wt_on x), VInt U64 (Z.of_nat n1)) :: en) in *.
        assert (Hl2 : forall n, In n (leaf_names (flatten_items its)) -> lookup n en2 = lookup n en).
        { intros n Hn. unfold en2. apply lookup_ext; [intros ->; contradiction|]. apply user_blen. destruct Hfr as (_ & _ & A3 & _). apply A3. rewrite flatten_cons, leaf_names_app. apply in_app_iff. auto. }
        apply IH with (S := S ++ exports c a t) in Hpl; try assumption.
        * destruct Hpl as (b & vs & -> & -> & Af).
          exists b0, vs2, n2, cv, (VInt U64 (Z.of_nat n1)), (b1 ++ b), (vs1 ++ vs). rewrite <- !app_assoc. split; [reflexivity|]. split; [reflexivity|]. split; [exact Ez|].
          intros Hcan ed rest HS HP Hg. apply canon_app in Hcan as (Hcan1 & Hcan2).
          assert (HS2 : sees S en2 ed).
          { intros n y Hn Hy. unfold en2 in Hy. rewrite lookup_cons in Hy. destruct (String.eqb_spec (fa_name (fst f0)) n) as [<-|Hne].
            - injection Hy as <-. apply HP. assumption.
            - rewrite lookup_cons in Hy. destruct (String.eqb_spec (blen_name (wt_on x)) n) as [<-|_]; [|apply HS; assumption].
              exfalso. eapply user_blen; [|reflexivity]. apply Fr1. eassumption. }
          assert (Hpe : (wt_on x =? fa_name a)%string = true -> forall le0, Some le = Some le0 -> exists lv, ev ed le0 = Ok lv /\ limit_of lv = Ok n1).
          { intros _ le' E'. injection E' as <-. exists lv. split; [|assumption]. eapply (ev_sees S en2); [exact HS2| |exact Elv].
            destruct t; try discriminate Ele. cbn [cont_len] in Ele. subst len. cbn [RtWf.rt_ty] in W2. apply andb_true_iff in W2 as (W2 & _). apply subset_incl in W2. exact W2. }
          rewrite <- Epd in Hpe. assert (FR' := FR ed HS Hcan1 Hpe).
          clear FR. destruct (FR' [] (fun _ => eq_refl)) as (_ & N1 & E1).
          eapply combine_rt with (en2 := en2); try eassumption; auto.
          -- intros n y Hn Hy. apply in_app_iff in Hn as [Hn|Hn].
             ++ rewrite lookup_rev_out; [apply HS2; assumption|]. rewrite N1. apply Fr1. assumption.
             ++ apply lookup_rev_in; [rewrite N1; apply Fr1|]. apply E1; [assumption|]. unfold en2 in Hy. apply exports_leaf in Hn.
                rewrite lookup_ext in Hy; [assumption|intros ->; contradiction|]. apply user_blen. destruct Fr1 as (_ & _ & A3 & _). apply A3. assumption.
          -- exact I.
          -- intros m y Hm Hy. rewrite Hl2; [assumption|]. unfold iexports in Hm. apply in_flat_map in Hm as ([a' t'] & H1 & H2). apply exports_leaf in H2.
             unfold flatten_items. unfold leaf_names in *. rewrite In_names in *. destruct H2 as (f & H3 & H4). exists f. split; [apply in_flat_map; eauto|assumption].
        * intros f y Hf Lf Hc Hy. apply Hd2; try assumption. rewrite <- Hl2; [assumption|].
          unfold leaf_names. apply In_names. exists f. split; [|auto]. unfold flatten_items. apply in_flat_map. exists f. split; [assumption|]. unfold flatten_field.
          unfold leaf in Lf. destruct (is_cont (snd f)); [rewrite orb_true_r in Lf; discriminate|]. left. reflexivity.
        * intros f Hf Hcf n y Hn Hy. apply (Hr2 f Hf Hcf n y Hn). rewrite <- Hl2; [assumption|]. apply noncalc_leaf in Hn.
          unfold leaf_names in *. rewrite In_names in *. destruct Hn as (f' & H3 & H4). exists f'. split; [|assumption]. unfold flatten_items. apply in_flat_map. exists f. split; [assumption|].
          unfold flatten_field. rewrite Hcf. assumption.
        * intros n y Hn Hy. apply (St2 n y Hn). rewrite <- Hl2; [assumption|]. apply blencalc_leaf. assumption.
      + apply IH with (S := S ++ exports c a t) in Hpl; try assumption.
        destruct (Hpl f0) as (b0 & vs2 & n2 & cv & ml & b & vs & -> & -> & Ef & Af); [assumption|assumption|]. cbn [wt_bytes wt_vals wt_on] in *.
        exists b0, vs2, n2, cv, ml, (b1 ++ b), (vs1 ++ vs). rewrite <- !app_assoc. split; [reflexivity|]. split; [reflexivity|]. split; [exact Ef|].
        intros Hcan ed rest HS HP Hg. apply canon_app in Hcan as (Hcan1 & Hcan2).
        assert (Hpe : (wt_on x =? fa_name a)%string = true -> forall le0, cont_len t = Some le0 -> exists lv, ev ed le0 = Ok lv /\ limit_of lv = Ok n1).
        { intros E le E'. rewrite E, E' in Epd. discriminate. }
        assert (FR' := FR ed HS Hcan1 Hpe).
        clear FR. destruct (FR' [] (fun _ => eq_refl)) as (_ & N1 & E1).
        eapply combine_rt with (en2 := en); try eassumption; auto.
        * eapply (sees_after c S en ed (a, t)); eassumption.
        * cbn beta. intros Hn. apply in_app_iff in Hn as [Hn|Hn].
          -- rewrite lookup_rev_out; [apply HP; assumption|]. rewrite N1. assumption.
          -- apply exports_leaf in Hn. contradiction.
  Qed.

  Lemma rt_ty_cont c S len tg' items : rt_ty tg c S (TCont len tg' items) = subset (fvo len) S && rt_items tg c S items.
  Proof.
    cbn [RtWf.rt_ty]. f_equal. revert S. induction items as [|[a t] items IH]; intros S; [reflexivity|]. cbn [RtWf.rt_items]. rewrite IH. reflexivity.
  Qed.

  Definition udirect (items : list (fattr * ty)) : list string :=
    map (fun f => fa_name (fst f)) (filter (fun f => negb (is_some (fa_calc (fst f)) || fa_pad (fst f) || is_cont (snd f) || is_some (fa_cond (fst f)))) items).
  Lemma unwraps_spec items : NoDup (udirect items) -> forall en en', se_unwraps items en = Ok en' -> forall n y, lookup n en' = Some y ->
    (In n (udirect items) /\ lookup n en = Some (VOpt (Some y))) \/ (~ In n (udirect items) /\ lookup n en = Some y).
  Proof.
    unfold udirect. induction items as [|[a t] items IH]; cbn [se_unwraps filter]; intros ND en en' H n y Hy.
    - apply Ok_inj in H. subst en'. right. cbn. auto.
    - cbn [fst snd] in *. destruct (is_some (fa_calc a) || fa_pad a || is_cont t || is_some (fa_cond a)); cbn [negb] in *; [eapply IH; eauto|].
      bi H v Ev. bi H x Ex. cbn [map fst] in *. inversion ND as [|? ? N1 N2]; subst. destruct (lookup (fa_name a) en) as [v0|] eqn:El; [|discriminate]. apply Ok_inj in Ev. subst v0.
      assert (v = VOpt (Some x)) by (destruct v; try discriminate Ex; destruct o; try discriminate Ex; apply Ok_inj in Ex; congruence). subst v.
      destruct (IH N2 _ _ H n y Hy) as [(I1 & I2)|(I1 & I2)]; rewrite lookup_cons in I2.
      + left. split; [right; assumption|]. destruct (String.eqb_spec (fa_name a) n) as [<-|]; [contradiction|assumption].
      + destruct (String.eqb_spec (fa_name a) n) as [<-|Hne].
        * injection I2 as <-. left. split; [left; reflexivity|assumption].
        * right. split; [|assumption]. intros [E|E]; [congruence|contradiction].
  Qed.
  Lemma udirect_leaf items n : In n (udirect items) -> In n (leaf_names items).
  Proof.
    unfold udirect, leaf_names. rewrite !In_names. intros (f & H1 & H2 & H3). exists f. split; [assumption|]. split; [|assumption].
    unfold leaf. destruct (fa_pad (fst f)), (is_cont (snd f)), (is_some (fa_calc (fst f))); cbn in *; congruence.
  Qed.
  Lemma in_flatten items f : In f items -> leaf f = true -> In f (flatten_items items).
  Proof.
    intros H L. unfold flatten_items. apply in_flat_map. exists f. split; [assumption|]. unfold flatten_field. unfold leaf in L.
    destruct (is_cont (snd f)); [rewrite orb_true_r in L; discriminate|]. left. reflexivity.
  Qed.
  Lemma sub_filter (P : fattr * ty -> bool) items : NoDup (leaf_names (flatten_items items)) -> (forall f, P f = true -> leaf f = true) ->
    NoDup (map (fun f => fa_name (fst f)) (filter P items)).
  Proof.
    intros ND HP. induction items as [|f items IH]; cbn [filter map]; [constructor|]. rewrite flatten_cons, leaf_names_app in ND. apply NoDup_app_inv in ND as (N1 & N2 & N3).
    destruct (P f) eqn:E; [|auto]. cbn [map]. constructor; [|auto]. intros Hi. apply In_names in Hi as (f' & H1 & H2 & H3).
    apply (N3 (fa_name (fst f))).
    - unfold leaf_names. apply In_names. exists f. split; [|auto]. specialize (HP _ E). unfold flatten_field. unfold leaf in HP. destruct (is_cont (snd f)); [rewrite orb_true_r in HP; discriminate|]. left. reflexivity.
    - rewrite <- H3. unfold leaf_names. apply In_names. exists f'. split; [apply in_flatten; auto|auto].
  Qed.
  Lemma cont_flatten items f g0 : In f items -> is_cont (snd f) = true -> In g0 (flatten_ty (snd f)) -> In g0 (flatten_items items).
  Proof. intros H C G. unfold flatten_items. apply in_flat_map. exists f. split; [assumption|]. unfold flatten_field. rewrite C. assumption. Qed.

  (* a name of the direct leaves is not a name inside a nested container *)
  Lemma direct_nested items f n : NoDup (leaf_names (flatten_items items)) -> In f items -> is_cont (snd f) = true ->
    In n (leaf_names (flatten_ty (snd f))) -> ~ In n (udirect items).
  Proof.
    intros ND Hf Hc Hn Hu. apply udirect_leaf in Hu. unfold leaf_names in Hu. apply In_names in Hu as (f2 & H1 & H2 & H3).
    induction items as [|f1 items IH]; [contradiction|]. rewrite flatten_cons, leaf_names_app in ND. apply NoDup_app_inv in ND as (N1 & N2 & N3).
    assert (Hin : forall f, In f items -> is_cont (snd f) = true -> In n (leaf_names (flatten_ty (snd f))) -> In n (leaf_names (flatten_items items))).
    { intros f' Hf' Hc' Hn'. unfold leaf_names in *. rewrite In_names in *. destruct Hn' as (g0 & G1 & G2). exists g0. split; [eapply cont_flatten; eauto|assumption]. }
    destruct Hf as [->|Hf], H1 as [->|H1].
    - unfold leaf in H2. rewrite Hc, orb_true_r in H2. discriminate.
    - apply (N3 n); [unfold flatten_field; rewrite Hc; assumption|]. unfold leaf_names. apply In_names. exists f2. split; [apply in_flatten; auto|auto].
    - apply (N3 n); [|eauto]. unfold leaf_names. apply In_names. exists f2. split; [|auto]. unfold flatten_field. unfold leaf in H2. destruct (is_cont (snd f2)); [rewrite orb_true_r in H2; discriminate|]. left. reflexivity.
    - auto.
  Qed.

  Lemma rt_items_fields c S items f : rt_items tg c S items = true -> In f items -> exists S', field_ok p tg c S' (fst f) (snd f) = true.
  Proof.
    revert S. induction items as [|[a t] items IH]; intros S H Hf; [contradiction|]. cbn [RtWf.rt_items] in H. rewrite !andb_true_iff in H. destruct H as (((H1 & _) & _) & H2).
    destruct Hf as [<-|Hf]; [eauto|eapply IH; eauto].
  Qed.

  (* entering the contents of a container at level [c] *)
  Lemma enter c S en en' ed items : rt_items tg c S items = true -> raw en (flatten_items items) -> stored en (flatten_items items) ->
    fresh S (leaf_names (flatten_items items)) -> sees S en ed -> (if c then se_unwraps items en else Ok en) = Ok en' ->
    direct c en' items /\ rawin en' items /\ stored en' (flatten_items items) /\ sees S en' ed.
  Proof.
    intros Hwf Hraw Hst Hfr HS H. destruct Hfr as (ND & Hdis & _).
    assert (Rin : forall f, In f items -> is_cont (snd f) = true -> forall n, In n (noncalc (flatten_ty (snd f))) -> In n (noncalc (flatten_items items))).
    { intros f Hf Hc n Hn. unfold noncalc in *. rewrite In_names in *. destruct Hn as (g0 & G1 & G2). exists g0. split; [eapply cont_flatten; eauto|assumption]. }
    assert (Din : forall f, In f items -> leaf f = true -> fa_calc (fst f) = None -> In (fa_name (fst f)) (noncalc (flatten_items items))).
    { intros f Hf Lf Hc. unfold noncalc. apply In_names. exists f. split; [apply in_flatten; auto|]. rewrite Lf, Hc. auto. }
    destruct c.
    2:{ apply Ok_inj in H. subst en'. split; [|split; [|auto]].
      - intros f x Hf Lf Hc Hx. cbn [lift]. apply Hraw; auto.
      - intros f Hf Hc n x Hn Hx. apply Hraw; [|assumption]. eapply Rin; eauto. }
    assert (NDu : NoDup (udirect items)).
    { apply sub_filter; [assumption|]. intros f Hf. unfold leaf. destruct (fa_pad (fst f)), (is_cont (snd f)), (is_some (fa_calc (fst f))); cbn in *; congruence. }
    pose proof (unwraps_spec items NDu _ _ H) as U. split; [|split; [|split]].
    - intros f x Hf Lf Hc Hx. cbn [lift]. destruct (U _ _ Hx) as [(U1 & U2)|(U1 & U2)]; [apply Hraw; auto|].
      exfalso. apply U1. unfold udirect. apply In_names. exists f. split; [assumption|]. split; [|reflexivity].
      destruct (rt_items_fields _ _ _ _ Hwf Hf) as (S' & W). unfold field_ok in W. rewrite !andb_true_iff in W. destruct W as (((((_ & _) & W) & _) & _) & _).
      rewrite Hc. unfold leaf in Lf. destruct (fa_pad (fst f)), (is_cont (snd f)), (is_some (fa_cond (fst f))); cbn in *; congruence.
    - intros f Hf Hc n x Hn Hx. destruct (U _ _ Hx) as [(U1 & U2)|(U1 & U2)]; [|apply Hraw; [eapply Rin; eauto|assumption]].
      exfalso. eapply direct_nested; eauto. apply noncalc_leaf. assumption.
    - intros n x Hn Hx. destruct (U _ _ Hx) as [(U1 & U2)|(U1 & U2)]; [|apply Hst; assumption].
      exfalso. unfold udirect, blencalcs in *. rewrite In_names in *. destruct Hn as (f1 & A1 & A2 & A3). destruct U1 as (f2 & B1 & B2 & B3).
      assert (L1 : leaf f1 = true) by (unfold is_blencalc in A2; apply andb_true_iff in A2; tauto).
      assert (L2 : leaf f2 = true) by (unfold leaf; destruct (fa_pad (fst f2)), (is_cont (snd f2)), (is_some (fa_calc (fst f2))); cbn in *; congruence).
      assert (f1 = f2) by (eapply leaf_unique; eauto; [apply in_flatten; auto|congruence]). subst f2.
      unfold is_blencalc in A2. apply andb_true_iff in A2 as (_ & A2). destruct (fa_calc (fst f1)); [discriminate B2|discriminate A2].
    - intros n x Hn Hx. destruct (U _ _ Hx) as [(U1 & U2)|(U1 & U2)]; [|apply HS; assumption].
      exfalso. apply (Hdis _ Hn). apply udirect_leaf in U1. unfold leaf_names in *. rewrite In_names in *. destruct U1 as (f & A1 & A2 & A3). exists f. split; [apply in_flatten; auto|auto].
  Qed.

  Lemma complex_rt : forall t a, cspec (a, t).
  Proof.
    induction t using ty_ind'; intros a c pend S en ed v b vs rest H' Hwf HS Hv Hr Hfr Hcan Hpe Hg; unfold flatten_field in *; cbn [snd is_cont] in *.
    10:{ destruct (fa_pad a) eqn:Hpd; cbn [Spec.se_complex] in H'; rewrite Hpd in H'; [discriminate|]. destruct tagged; [discriminate|].
      cbn [Spec.sd_complex]. rewrite Hpd. rewrite rt_ty_cont in Hwf. apply andb_true_iff in Hwf as (Hlen & Hwf). apply subset_incl in Hlen.
      rewrite flatten_ty_cont in *. destruct (Hr eq_refl) as (Rw & St).
      set (k := let! en' := (if c then se_unwraps items en else Ok en) in
            se_items (map (fun f => (fst f, snd f, se_complex (fst f) (snd f))) items) en' c [] [] None) in *.
      assert (K : k = Ok (b, vs) /\ (forall e, len = Some e -> exists lv, ev ed e = Ok lv /\ limit_of lv = Ok (List.length b))).
      { unfold se_limit in H'. destruct len as [e|]; [|split; [assumption|discriminate]]. destruct pend.
        - split; [assumption|]. intros e' E'. apply Hpe; [reflexivity|]. cbn. assumption.
        - bi H' lv Elv. bi H' ln Eln. bi H' ba Eba. destruct ba as [b' vs']. apply refuse_ok in H' as (C & H'). apply Ok_inj in H'. injection H' as -> ->. split; [assumption|].
          intros e' E'. injection E' as <-. exists lv. split; [eapply ev_sees; eauto|]. destruct (limit_of lv) as [n| | |]; try discriminate C. apply Nat.eqb_eq in C. congruence. }
      destruct K as (K & Klim). unfold k in K. bi K en' Een. clear H' k.
      destruct (enter c S en en' ed items Hwf Rw St Hfr HS Een) as (I1 & I2 & I3 & I4).
      assert (HCs : Forall cspec items) by (eapply Forall_impl; [|exact H]; intros [a' t'] Hx; apply Hx).
      destruct (items_rt items HCs c S en' [] [] None b vs K Hwf I1 I2 I3 Hfr) as (b1 & vs1 & -> & -> & Af). cbn [app] in *.
      assert (D : forall rest', (existsb greedy_field items = true -> rest' = []) -> _) by (intros rest' Hg'; exact (Af Hcan ed rest' I4 I Hg')).
      destruct (D [] (fun _ => eq_refl)) as (D0 & N & E). rewrite app_nil_r in D0.
      split; [|split; [assumption|]].
      - unfold sd_limit. destruct len as [e|].
        + destruct (Klim e eq_refl) as (lv & E1 & E2). rewrite E1. cbn [bind]. rewrite E2. cbn [bind]. rewrite firstn_app_exact, skipn_app_exact by reflexivity.
          change (map (fun f => (fst f, snd f, sd_complex (fst f) (snd f))) items) with (map sd_item items). rewrite D0. reflexivity.
        + change (map (fun f => (fst f, snd f, sd_complex (fst f) (snd f))) items) with (map sd_item items). apply D. exact Hg.
      - intros _ Hcd -> m x Hm Hx. cbn [exports] in Hm. rewrite Hcd in Hm. cbn [is_some] in Hm. apply Ok_inj in Een. subst en'. apply E; assumption. }
    all: cbn [Spec.se_complex Spec.sd_complex] in *; destruct (fa_pad a) eqn:Hpd;
      try (match type of H' with Panic = _ => discriminate H' end).
    all: unfold leaf_names, leaf; cbn [filter fst snd map is_cont]; rewrite Hpd; cbn [orb negb map fst];
      try (bi H' bv Ebv; destruct bv as [b0 v0]; apply Ok_inj in H'; injection H' as <- <-;
        assert (v0 = v) by (apply Hv; [reflexivity|reflexivity|left; reflexivity]); subst v0;
        pose proof (type_rt tg _ c S en ed v b0 rest Ebv Hwf HS Hg) as Dt; rewrite Dt; cbn [bind];
        split; [reflexivity|]; split; [reflexivity|discriminate]).
    destruct l as [e| |e]; try discriminate H'. bi H' lv Elv. bi H' n En. apply Ok_inj in H'. injection H' as <- <-.
    cbn [RtWf.rt_ty] in Hwf. rewrite !andb_true_iff in Hwf. destruct Hwf as (_ & Hfv). apply subset_incl in Hfv. cbn [ty_fv] in Hfv.
    rewrite (ev_sees S en ed e lv HS) by (try assumption; intros x Hx; apply Hfv; apply in_app_iff; auto). cbn [bind]. rewrite En. cbn [bind].
    rewrite read_exact_app by apply repeat_length. cbn [bind]. split; [reflexivity|]. split; [reflexivity|discriminate].
  Qed.

  (** *** The fields written are the leaves, in order *)
  Lemma field_names f : (forall en v c pend b vs, se_complex (fst f) (snd f) en v c pend = Ok (b, vs) -> map fst vs = leaf_names (flatten_field f)) ->
    forall en v c pend b vs n, se_field (se_item f) en v c pend = Ok (b, (vs, n)) -> map fst vs = leaf_names (flatten_field f).
  Proof.
    intros HC en v c pend b vs n H. destruct f as [a t]. unfold Spec.se_field, Spec.se_item in H. cbn [fst snd] in *.
    assert (Body : forall rv c' b0 vs0 n0,
      se_xs w inputs (Some g) en (fa_xs a) (let! v := rv in let! (b, vs) := se_complex a t en v c' pend in Ok (b, (vs, List.length b))) = Ok (b0, (vs0, n0)) ->
      map fst vs0 = leaf_names (flatten_field (a, t))).
    { intros rv c' b0 vs0 n0 X. destruct (se_xs_inner _ _ _ _ _ X) as (b1 & Ek). bi Ek v0 Ev0. bi Ek bv Ebv. destruct bv as [b2 vs2]. apply Ok_inj in Ek. injection Ek as _ <- _. eapply HC; eassumption. }
    destruct (fa_cond a).
    - bi H cv Ecv. bi H cb Ecb. destruct cb.
      + bi H y Ey. destruct y as [b0 [vs0 n0]]. apply Ok_inj in H. injection H as _ <- _. rewrite map_fst_wrap. eapply Body; eassumption.
      + apply Ok_inj in H. injection H as _ <- _. apply map_fst_none.
    - eapply Body; eassumption.
  Qed.
  Lemma items_names its : Forall (fun f => forall en v c pend b vs, se_complex (fst f) (snd f) en v c pend = Ok (b, vs) -> map fst vs = leaf_names (flatten_field f)) its ->
    forall en c out vs0 wt B V, (match wt with Some x => exists f0, wt_item x = se_item f0 /\ (forall en v c pend b vs, se_complex (fst f0) (snd f0) en v c pend = Ok (b, vs) -> map fst vs = leaf_names (flatten_field f0)) | None => True end) ->
    se_items (map se_item its) en c out vs0 wt = Ok (B, V) ->
    exists f0names, map fst V = map fst vs0 ++ f0names ++ match wt with Some x => map fst (wt_vals x) | None => [] end ++ leaf_names (flatten_items its)
      /\ match wt with Some x => forall f0, wt_item x = se_item f0 -> f0names = leaf_names (flatten_field f0) | None => f0names = [] end.
  Proof.
    induction 1 as [|[a t] its HC HCs IH]; intros en c out vs0 wt B V Hwt H.
    - cbn in H. destruct wt; [discriminate|]. apply Ok_inj in H. injection H as <- <-. exists []. cbn. rewrite app_nil_r. auto.
    - cbn [map] in H. change (se_item (a, t)) with (a, t, se_complex a t) in H. rewrite se_items_cons in H. cbv zeta in H. change (a, t, se_complex a t) with (se_item (a, t)) in H.
      pose proof (field_names (a, t) HC) as FN. rewrite flatten_cons, leaf_names_app.
      set (plain := bind (if is_cont t || fa_pad a then Ok (VBool false) else of_some (lookup (fa_name a) en)) _) in H.
      assert (Plain : plain = Ok (B, V) -> exists f0names, map fst V = map fst vs0 ++ f0names ++ match wt with Some x => map fst (wt_vals x) | None => [] end ++ leaf_names (flatten_field (a, t)) ++ leaf_names (flatten_items its)
        /\ match wt with Some x => forall f0, wt_item x = se_item f0 -> f0names = leaf_names (flatten_field f0) | None => f0names = [] end).
      { intros Hpl. unfold plain in Hpl. clear plain H. bi Hpl v Ev. cbv zeta in Hpl. bi Hpl bvn Ebv. destruct bvn as [b1 [vs1 n1]]. apply FN in Ebv.
        destruct wt as [x|].
        - destruct Hwt as (f0 & Ef0 & Hf0). destruct (_ && _) in Hpl.
          + bi Hpl e' Ee'. bi Hpl cv Ecv. bi Hpl z Ez. destruct z as [b0 [vs2 n2]]. rewrite Ef0 in Ez. apply (field_names f0 Hf0) in Ez.
            assert (X : exists en2 out2, se_items (map se_item its) en2 c out2 (vs0 ++ vs2 ++ wt_vals x ++ vs1) None = Ok (B, V)).
            { destruct (cont_len t); [|eauto]. bi Hpl lv Elv. bi Hpl lim Elim. destruct (lim =? n1)%nat; [|discriminate]. eauto. }
            destruct X as (en2 & out2 & X). apply IH in X; [|exact I]. destruct X as (? & X & ->). exists (leaf_names (flatten_field f0)). cbn [app] in X.
            rewrite X, !map_app, Ebv, Ez, <- !app_assoc. split; [reflexivity|]. intros f1 E1. rewrite Ef0 in E1.
            assert (f0 = f1) by (destruct f0, f1; unfold Spec.se_item in E1; cbn in E1; injection E1 as -> -> _; reflexivity). subst. reflexivity.
          + apply IH in Hpl; [|exists f0; auto]. destruct Hpl as (nn & X & Y). exists nn. cbn [wt_vals wt_item] in *. rewrite X, !map_app, Ebv, <- !app_assoc. auto.
        - apply IH in Hpl; [|exact I]. destruct Hpl as (nn & X & ->). exists []. cbn [app] in *. rewrite X, !map_app, Ebv, <- !app_assoc. auto. }
      destruct (fa_calc a) as [e|] eqn:Eca; [|apply Plain; exact H].
      destruct (blen_calls e) as [[|cn [|? ?]]|] eqn:Eb; try discriminate H; [apply Plain; exact H|].
      destruct wt; [discriminate|]. apply IH in H; [|exists (a, t); auto]. destruct H as (nn & X & Y). exists []. cbn [wt_vals wt_item map app] in *. rewrite X.
      rewrite (Y (a, t) eq_refl). auto.
  Qed.
  Lemma complex_names : forall t a en v c pend b vs, se_complex a t en v c pend = Ok (b, vs) -> map fst vs = leaf_names (flatten_field (a, t)).
  Proof.
    induction t using ty_ind'; intros a en v c pend b vs E; unfold flatten_field; cbn [snd is_cont];
    cbn [Spec.se_complex] in E; destruct (fa_pad a) eqn:Hpd; try discriminate E.
    11:{ destruct tagged; [discriminate|]. rewrite flatten_ty_cont.
      assert (K : (let! en' := (if c then se_unwraps items en else Ok en) in
            se_items (map (fun f => (fst f, snd f, se_complex (fst f) (snd f))) items) en' c [] [] None) = Ok (b, vs)).
      { unfold se_limit in E. destruct len as [e|]; [|assumption]. destruct pend; [assumption|].
        bi E lv Elv. bi E ln Eln. bi E ba Eba. destruct ba as [b' vs']. apply refuse_ok in E as (C & E). apply Ok_inj in E. injection E as -> ->. assumption. }
      bi K en' Een. apply (items_names items) in K; [|eapply Forall_impl; [|exact H]; intros [a' t'] Hx; intros; eapply Hx; eassumption|exact I].
      destruct K as (? & K & ->). exact K. }
    all: unfold leaf_names, leaf; cbn [filter fst snd map is_cont]; rewrite Hpd; cbn [orb negb map fst];
      try (bi E bv Ebv; destruct bv as [b0 v0]; apply Ok_inj in E; injection E as <- <-; reflexivity).
    destruct l as [e| |e]; try discriminate E. bi E lv Elv. bi E n En. apply Ok_inj in E. injection E as <- <-. reflexivity.
  Qed.
End RT.

(** ** Whole declarations *)
Lemma se_refs_spec l fs : forall en en', se_refs l fs en = Ok en' -> forall n x, lookup n en' = Some x ->
  (In n (map (fun f => fa_name (fst f)) (filter (fun f => negb (is_some (fa_calc (fst f)) || fa_pad (fst f))) l)) /\ lookup n fs = Some x) \/ lookup n en = Some x.
Proof.
  induction l as [|[a t] l IH]; cbn [se_refs filter]; intros en en' H n x Hx; [apply Ok_inj in H; subst; auto|]. cbn [fst].
  destruct (is_some (fa_calc a) || fa_pad a); cbn [negb]; [eapply IH; eauto|]. bi H v Ev. cbn [map fst].
  destruct (IH _ _ H _ _ Hx) as [(I1 & I2)|I2]; [left; split; [right; assumption|assumption]|]. rewrite lookup_cons in I2.
  destruct (String.eqb_spec (fa_name a) n) as [<-|]; [|auto]. left. split; [left; reflexivity|]. injection I2 as ->. destruct (lookup (fa_name a) fs); [|discriminate]. apply Ok_inj in Ev. congruence.
Qed.
Definition plaincalc (f : fattr * ty) : bool :=
  match fa_calc (fst f) with Some e => match blen_calls e with Some [] => true | _ => false end | None => false end.
Lemma se_calcs_spec w inputs l : forall en en', se_calcs w inputs l en = Ok en' -> forall n x, lookup n en' = Some x ->
  In n (map (fun f => fa_name (fst f)) (filter plaincalc l)) \/ lookup n en = Some x.
Proof.
  induction l as [|[a t] l IH]; cbn [se_calcs filter]; intros en en' H n x Hx; [apply Ok_inj in H; subst; auto|]. unfold plaincalc at 1. cbn [fst].
  destruct (fa_calc a) as [e|]; [|eapply IH; eauto]. destruct (blen_calls e) as [[|? ?]|]; [|eapply IH; eauto|discriminate].
  bi H v Ev. cbn [map fst]. destruct (IH _ _ H _ _ Hx) as [I1|I2]; [left; right; assumption|]. rewrite lookup_cons in I2.
  destruct (String.eqb_spec (fa_name a) n) as [<-|]; [left; left; reflexivity|auto].
Qed.

Section Decls.
  Variable w : world.
  Variable g : good.
  Variable mk : marks.
  Hypothesis Hw : world_laws w g mk.
  Variable p : program.
  Variable rf : nat.
  Variable inputs : string -> option val.
  Variable rec : string -> list val -> list Z -> res ioerr (val * list Z).
  Variable erec : string -> list val -> val -> res ioerr (list Z * val).
  Hypothesis Hrec : forall n vs v b rest, foreign_of p n = None -> erec n vs v = Ok (b, v) -> (mk_ty mk n = true -> rest = []) ->
    rec n vs (b ++ rest) = Ok (v, rest).

  Notation ev := (ev w inputs).
  Notation sd_items := (sd_items w inputs).
  Notation sd_item := (sd_item w p rf inputs rec).
  Notation se_items := (se_items w inputs (Some g)).
  Notation se_item := (se_item w p rf inputs (Some g) erec).

  Lemma names_ok_fresh l : names_ok l = true -> fresh [] l.
  Proof.
    unfold names_ok. intros H. apply andb_true_iff in H as (H1 & H2). apply nodup_NoDup in H1. rewrite forallb_forall in H2.
    split; [assumption|]. split; [intros ? []|]. split; [|intros ? []]. intros n Hn. unfold user. apply H2 in Hn. apply negb_true_iff. assumption.
  Qed.
  Lemma flat_leaf : forall t f, In f (flatten_ty t) -> is_cont (snd f) = false.
  Proof.
    induction t using ty_ind'; intros f Hf; try contradiction. rewrite flatten_ty_cont in Hf. unfold flatten_items in Hf. apply in_flat_map in Hf as (f' & H1 & H2).
    unfold flatten_field in H2. rewrite Forall_forall in H. destruct (is_cont (snd f')) eqn:E; [eapply H; eauto|]. destruct H2 as [<-|[]]. assumption.
  Qed.
  Lemma flat_leaf_items items f : In f (flatten_items items) -> is_cont (snd f) = false.
  Proof. intros H. apply (flat_leaf (TCont None false items)). rewrite flatten_ty_cont. assumption. Qed.

  (* the body of a struct or of a container variant, given the stored fields [vs] *)
  Lemma body_rt tg items en0 en b vs : se_calcs w inputs (flatten_items items) en0 = Ok en ->
    (forall n x, lookup n en0 = Some x -> lookup n vs = Some x /\
       (tg = true \/ In n (map (fun f => fa_name (fst f)) (filter (fun f => negb (is_some (fa_calc (fst f)) || fa_pad (fst f))) (flatten_items items))))) ->
    se_items (map se_item items) en false [] [] None = Ok (b, vs) ->
    rt_items p mk tg false [] items = true -> names_ok (leaf_names (flatten_items items)) = true ->
    forall rest, (existsb (greedy_field p mk) items = true -> rest = []) -> sd_items (map sd_item items) [] (b ++ rest) = Ok (vs, rest).
  Proof.
    intros Hc H0 H Hwf Hn rest Hg. pose proof (names_ok_fresh _ Hn) as Hfr. pose proof Hfr as (ND & _).
    assert (N : map fst vs = leaf_names (flatten_items items)).
    { pose proof (items_names w g p rf inputs erec items) as X. specialize (X ltac:(apply Forall_forall; intros [a t] _; intros; eapply complex_names; eassumption) _ _ _ _ None _ _ I H).
      destruct X as (? & X & ->). exact X. }
    set (F := fun n => lookup n vs).
    assert (Hcan : canon F false vs).
    { intros n x Hx. unfold F, lift. apply lookup_in; [unfold names; rewrite N; assumption|assumption]. }
    assert (U : forall n x f, In f (flatten_items items) -> leaf f = true -> fa_name (fst f) = n -> plaincalc f = false -> lookup n en = Some x -> lookup n en0 = Some x).
    { intros n x f Hf Lf Ef Hp Hx. destruct (se_calcs_spec w inputs _ _ _ Hc _ _ Hx) as [I1|I2]; [|assumption]. exfalso.
      apply In_names in I1 as (f' & A1 & A2 & A3).
      destruct (fa_pad (fst f')) eqn:Hpd.
      - clear - Hwf A1 A2 Hpd. assert (X : forall c S, rt_items p mk tg c S items = true -> False); [|eapply X; exact Hwf]. clear Hwf.
        assert (Y : forall t c S, rt_ty p mk tg c S t = true -> In f' (flatten_ty t) -> False).
        { induction t using ty_ind'; intros c S Ht Hi; try contradiction. rewrite rt_ty_cont in Ht. apply andb_true_iff in Ht as (_ & Ht). rewrite flatten_ty_cont in Hi.
          revert S Ht. induction items0 as [|[a t] its IH]; intros S Ht; [contradiction|]. inversion H as [|? ? H1 H2]; subst.
          cbn [rt_items] in Ht. rewrite !andb_true_iff in Ht. destruct Ht as (((W1 & W2) & W3) & W4).
          rewrite flatten_cons in Hi. apply in_app_iff in Hi as [Hi|Hi]; [|eapply IH; eauto].
          unfold flatten_field in Hi. cbn [snd] in Hi. destruct (is_cont t); [eapply H1; eauto|]. destruct Hi as [<-|[]].
          unfold plaincalc in A2. cbn [fst] in *. destruct (fa_calc a) eqn:Ea; [|discriminate A2]. unfold field_ok in W1. rewrite !andb_true_iff in W1. destruct W1 as ((_ & W1) & _).
          rewrite Ea, Hpd in W1. cbn in W1. rewrite andb_false_r in W1. discriminate. }
        intros c S Hwf. eapply (Y (TCont None false items) c S); [rewrite rt_ty_cont; cbn [fvo]; exact Hwf|rewrite flatten_ty_cont; assumption].
      - assert (f = f').
        { eapply leaf_unique; eauto; [|congruence]. unfold leaf. rewrite Hpd, (flat_leaf_items _ _ A1). reflexivity. }
        subst f'. congruence. }
    assert (Rw : raw F en (flatten_items items)).
    { intros n x Hi Hx. unfold noncalc in Hi. apply In_names in Hi as (f & A1 & A2 & A3). apply andb_true_iff in A2 as (A2 & A4).
      assert (E : lookup n en0 = Some x) by (eapply U; eauto; unfold plaincalc; destruct (fa_calc (fst f)); [discriminate A2|reflexivity]).
      apply H0 in E as (E & _). exact E. }
    assert (St : stored tg F en (flatten_items items)).
    { intros n x Hi Hx. unfold blencalcs in Hi. apply In_names in Hi as (f & A1 & A2 & A3). unfold is_blencalc in A2. apply andb_true_iff in A2 as (A2 & A4).
      assert (E : lookup n en0 = Some x).
      { eapply U; eauto. unfold plaincalc. destruct (fa_calc (fst f)) as [e|]; [|reflexivity]. destruct (blen_calls e) as [[|? ?]|]; [discriminate A4|reflexivity|reflexivity]. }
      apply H0 in E as (E & [->|E2]); [split; [reflexivity|exact E]|]. exfalso. apply In_names in E2 as (f' & B1 & B2 & B3).
      assert (f = f').
      { eapply leaf_unique; eauto; [|congruence]. unfold leaf. rewrite (flat_leaf_items _ _ B1). destruct (fa_pad (fst f')); [rewrite orb_true_r in B2; discriminate|reflexivity]. }
      subst f'. destruct (fa_calc (fst f)); [discriminate B2|discriminate A4]. }
    destruct (enter mk p inputs tg F false [] en en [] items Hwf Rw St Hfr ltac:(intros ? ? []) eq_refl) as (I1 & I2 & I3 & I4).
    destruct (items_rt w g mk Hw p rf inputs rec erec tg F items ltac:(apply Forall_forall; intros [a t] _; apply complex_rt; assumption) false [] en [] [] None b vs H Hwf I1 I2 I3 Hfr)
      as (b1 & vs1 & -> & -> & Af). cbn [app] in *. destruct (Af Hcan [] rest I4 I Hg) as (D & _). exact D.
  Qed.

  Lemma struct_rt items nm b vs : se_struct w p rf inputs (Some g) erec items (VStruct nm vs) = Ok (b, vs) ->
    rt_items p mk false false [] items = true -> names_ok (leaf_names (flatten_items items)) = true ->
    forall rest, (existsb (greedy_field p mk) items = true -> rest = []) -> sd_items (map sd_item items) [] (b ++ rest) = Ok (vs, rest).
  Proof.
    intros H Hwf Hn rest Hg. unfold se_struct in H. bi H en0 E0. bi H en E1.
    eapply (body_rt false items en0 en); eauto. intros n x Hx. destruct (existsb _ _) in E0.
    - cbn [fields_of bind] in E0. destruct (se_refs_spec _ _ _ _ E0 _ _ Hx) as [(A & B)|A]; [auto|]. rewrite lookup_nil in A. discriminate.
    - apply Ok_inj in E0. subst en0. rewrite lookup_nil in Hx. discriminate.
  Qed.

  Lemma mapM_lookup (fs : list (string * val)) ns l : mapM (fun n => let! x := of_some (lookup n fs) in Ok (n, x) : res ioerr (string * val)) ns = Ok l -> forall n x, In (n, x) l -> lookup n fs = Some x.
  Proof.
    revert l. induction ns as [|m ns IH]; cbn [mapM]; intros l H n x Hi; [apply Ok_inj in H; subst; contradiction|]. bi H y Ey. bi Ey z Ez. apply Ok_inj in Ey. subst y. bi H ys Eys. apply Ok_inj in H. subst l.
    destruct Hi as [E|Hi]; [|eauto]. injection E as -> ->. destruct (lookup n fs); [|discriminate]. apply Ok_inj in Ez. congruence.
  Qed.

  Lemma existsb_in {A} (f : A -> bool) l x : In x l -> f x = true -> existsb f l = true.
  Proof. intros. apply existsb_exists. eauto. Qed.

  Lemma variants_rt name items b v : se_variants w p rf inputs (Some g) erec name items v = Ok (b, v) ->
    forallb (fun f => field_ok p true false [] (fst f) (snd f) && negb (fa_pad (fst f)) && negb (nested_tag (snd f)) && rt_ty p mk true false [] (snd f)
                                && names_ok (leaf_names (flatten_ty (snd f)))) items = true ->
    forall rest, (existsb (greedy_field p mk) items = true -> rest = []) -> sd_variants w p rf inputs rec name items (b ++ rest) = Ok (v, rest).
  Proof.
    induction items as [|[a t] items IH]; cbn [se_variants sd_variants]; intros H Hwf rest Hg; [discriminate H|].
    cbn [forallb fst snd] in Hwf. rewrite !andb_true_iff in Hwf. destruct Hwf as (((((W1 & W2) & W2t) & W3) & W4) & W5).
    unfold field_ok in W1. rewrite !andb_true_iff in W1. destruct W1 as (((((F1 & F2) & _) & _) & _) & _). apply subset_incl in F1. apply Nat.leb_le in F2. apply negb_true_iff in W2.
    assert (Fx : incl (xs_fv (fa_xs a)) []) by (intros y Hy; apply F1; apply in_app_iff; auto).
    assert (HS : sees [] [] []) by (intros ? ? []).
    bi H c Ec. rewrite Ec. cbn [bind]. destruct c.
    2:{ apply IH; try assumption. intros E. apply Hg. cbn [existsb]. rewrite E. apply orb_true_r. }
    destruct v as [| | | | | | | | | | |n d x|n d fs]; try discriminate H; destruct (String.eqb name n) eqn:En; try discriminate H; destruct (String.eqb (fa_name a) d) eqn:Ed; try discriminate H.
    - destruct (is_cont t) eqn:Hc; [discriminate|]. bi H y Ey. destruct y as [b0 vs0].
      destruct (se_xs_inner _ _ _ _ _ _ _ _ Ey) as (b1 & Ek).
      assert (E3 : se_complex w p rf inputs (Some g) erec a t [] x false false = let! (b, v') := se_type w p rf inputs (Some g) erec [] t x in Ok (b, [(fa_name a, v')])).
      { destruct t; try discriminate Hc; cbn [Spec.se_complex]; rewrite W2; reflexivity. }
      assert (D3 : sd_complex w p rf inputs rec a t [] = fun l => let! (v, l) := sd_type w p rf inputs rec [] t l in Ok ([(fa_name a, v)], l)).
      { destruct t; try discriminate Hc; cbn [Spec.sd_complex]; rewrite W2; reflexivity. }
      rewrite E3 in Ek. bi Ek y Ey'. destruct y as [b2 x']. apply Ok_inj in Ek. injection Ek as -> <-.
      apply Ok_inj in H. injection H as <- _ _ ->. apply String.eqb_eq in En, Ed. subst n d.
      rewrite (xs_rt w g mk Hw inputs [] [] [] (greedy p mk t) (fa_xs a) _ _ b0 [(fa_name a, x)] [(fa_name a, x)] rest F2 Fx HS Ey); [reflexivity| |].
      + intros b3 rest' E4 Hg'. rewrite E3, Ey' in E4. cbn [bind] in E4. apply Ok_inj in E4. injection E4 as <-. rewrite D3.
        rewrite (type_rt w g mk Hw p rf inputs rec erec Hrec true t false [] [] [] x b1 rest' Ey' W3 HS Hg'). reflexivity.
      + intros E. apply Hg. cbn [existsb]. unfold greedy_field at 1. cbn [fst snd]. rewrite E. reflexivity.
    - destruct t as [| | | | | | | | |len tg' sub]; try discriminate H. cbn [is_cont].
      bi H en0 E0. bi H en E1. bi H y Ey. destruct y as [b0 vs0]. apply refuse_ok in H as (C & H). apply andb_true_iff in C as (C1 & C2).
      destruct len; [discriminate C1|]. destruct (fa_xs a) as [|? ?] eqn:Exs; [|discriminate C2]. apply Ok_inj in H. injection H as <- _ _ <-.
      apply String.eqb_eq in En, Ed. subst n d. cbn [rev sd_xs]. cbn [Spec.sd_complex]. rewrite W2.
      destruct tg'; [discriminate W2t|].
      rewrite flatten_ty_cont in W4. rewrite rt_ty_cont in W3. apply andb_true_iff in W3 as (_ & W3). bi E0 l El. apply Ok_inj in E0. subst en0. cbn [sd_limit].
      change (map (fun f => (fst f, snd f, sd_complex w p rf inputs rec (fst f) (snd f))) sub) with (map sd_item sub).
      rewrite (body_rt true sub _ en b0 vs0 E1); [reflexivity| |exact Ey|exact W3|exact W4|].
      + intros n x Hx. split; [|auto]. eapply mapM_lookup; [exact El|]. apply lookup_some_in in Hx. apply in_rev in Hx. exact Hx.
      + intros E. apply Hg. cbn [existsb]. unfold greedy_field at 1, greedy_with. cbn [fst snd]. rewrite Exs. cbn [existsb forallb orb andb greedy].
        match goal with |- ?x || _ = true => change x with (existsb (greedy_field p mk) sub) end. rewrite E. reflexivity.
  Qed.

  Lemma limit_rt {A} len (gt : bool) (k : res ioerr (list Z * A)) kd b a rest :
    se_limit w inputs (Some g) [] len false k = Ok (b, a) ->
    (forall rest, k = Ok (b, a) -> (gt = true -> rest = []) -> kd (b ++ rest) = Ok (a, rest)) ->
    (match len with None => gt | Some _ => false end = true -> rest = []) ->
    sd_limit w inputs [] len kd (b ++ rest) = Ok (a, rest).
  Proof.
    unfold se_limit, sd_limit. intros H K Hg. destruct len as [e|]; [|apply K; assumption].
    bi H lv Elv. bi H n0 En0. bi H y Ey. destruct y as [b0 a0]. apply refuse_ok in H as (C & H). apply Ok_inj in H. injection H as -> ->.
    rewrite Elv. cbn [bind]. destruct (limit_of lv) as [n| | |]; try discriminate C. cbn [bind]. apply Nat.eqb_eq in C. subst n.
    rewrite firstn_app_exact, skipn_app_exact by reflexivity. specialize (K [] Ey (fun _ => eq_refl)). rewrite app_nil_r in K. rewrite K. reflexivity.
  Qed.

  Lemma top_rt d v b rest : rt_decl p mk d = true -> match d_ty d with TForeign _ => False | _ => True end ->
    se_top w p rf inputs (Some g) erec d v = Ok (b, v) ->
    (greedy_field p mk (d_attr d, d_ty d) = true -> rest = []) ->
    sd_top w p rf inputs rec d (b ++ rest) = Ok (v, rest).
  Proof.
    intros Hwf Hf H Hg. unfold rt_decl in Hwf. rewrite !andb_true_iff in Hwf. destruct Hwf as ((F2 & F1) & W).
    apply Nat.leb_le in F2. apply subset_incl in F1. assert (HS : sees [] [] []) by (intros ? ? []).
    unfold se_top in H. unfold sd_top. unfold greedy_field in Hg. cbn [fst snd] in Hg. set (a := d_attr d) in *.
    assert (Ty : forall t v b, se_xs w inputs (Some g) [] (fa_xs a) (se_type w p rf inputs (Some g) erec [] t v) = Ok (b, v) ->
      rt_ty p mk false false [] t = true -> (greedy_with mk (greedy p mk t) (fa_xs a) = true -> rest = []) ->
      sd_xs w inputs [] (rev (fa_xs a)) (sd_type w p rf inputs rec [] t) (b ++ rest) = Ok (v, rest)).
    { clear H W Hg. intros t v0 b0 H W Hg. eapply (xs_rt w g mk Hw inputs []); [exact F2|exact F1|exact HS|exact H| |exact Hg].
      intros b1 r1 E G. eapply type_rt; eauto. }
    assert (Tu : forall t v b, se_xs w inputs (Some g) [] (fa_xs a) (let! (b, x') := se_type w p rf inputs (Some g) erec [] t v in Ok (b, VTup x')) = Ok (b, VTup v) ->
      rt_ty p mk false false [] t = true -> (greedy_with mk (greedy p mk t) (fa_xs a) = true -> rest = []) ->
      sd_xs w inputs [] (rev (fa_xs a)) (fun l => let! (v, l) := sd_type w p rf inputs rec [] t l in Ok (VTup v, l)) (b ++ rest) = Ok (VTup v, rest)).
    { clear H W Hg Ty. intros t v0 b0 H W Hg. eapply (xs_rt w g mk Hw inputs []); [exact F2|exact F1|exact HS|exact H| |exact Hg].
      intros b1 r1 E G. bi E y Ey. destruct y as [b2 x2]. apply Ok_inj in E. injection E as -> ->.
      erewrite type_rt; eauto. reflexivity. }
    destruct (d_ty d) as [e| | | |de|db|f|n args|el lc|len tg items] eqn:Et; try contradiction;
      try (apply Ty; assumption);
      try (destruct v as [| | | | | | | | |x| | |]; try discriminate H; apply Tu; [exact H|exact W|exact Hg]).
    destruct tg.
    - apply andb_true_iff in W as (W1 & W2). eapply (xs_rt w g mk Hw inputs []); [exact F2|exact F1|exact HS|exact H| |exact Hg].
      intros b1 r1 E G. eapply limit_rt with (gt := existsb (greedy_field p mk) items); [exact E| |].
      + intros r2 E2 G2. eapply variants_rt; eauto.
      + intros E2. apply G. destruct len; [discriminate E2|]. exact E2.
    - apply andb_true_iff in W as (W1 & W2). rewrite rt_ty_cont in W1. apply andb_true_iff in W1 as (_ & W1).
      assert (Ev : exists vs, v = VStruct (fa_name a) vs).
      { destruct (se_xs_inner _ _ _ _ _ _ _ _ H) as (b1 & Ek). bi Ek y Ey. destruct y as [b2 vs]. apply Ok_inj in Ek. injection Ek as _ <-. eauto. }
      destruct Ev as (vs & ->).
      eapply (xs_rt w g mk Hw inputs []); [exact F2|exact F1|exact HS|exact H| |exact Hg].
      intros b1 r1 E G. bi E y Ey. destruct y as [b2 vs2]. apply Ok_inj in E. injection E as -> ->.
      rewrite (limit_rt len (existsb (greedy_field p mk) items) _ (sd_items (map sd_item items) []) _ _ r1 Ey); [reflexivity| |].
      + intros r2 E2 G2. eapply struct_rt; eauto.
      + intros E2. apply G. destruct len; [discriminate E2|]. exact E2.
  Qed.
End Decls.

(** Everything the checked writer produces for a value reads back as that value. *)
Theorem sencode_sdecode w g mk p rf : world_laws w g mk -> rt_program p mk ->
  forall fuel n args v b rest, foreign_of p n = None ->
    sencode w p rf (Some g) fuel n args v = Ok (b, v) -> (mk_ty mk n = true -> rest = []) ->
    sdecode w p rf fuel n args (b ++ rest) = Ok (v, rest).
Proof.
  intros Hw Hp. induction fuel as [|fuel IH]; cbn [sencode sdecode]; intros n args v b rest Hf H Hg; [discriminate H|].
  bi H d Ed. bi H inp Ei. destruct (p n) as [d'|] eqn:Ep; [|discriminate Ed]. apply Ok_inj in Ed. subst d'. cbn [of_some bind]. rewrite Ei. cbn [bind].
  destruct (Hp _ _ Ep Hf) as (P1 & P2). eapply top_rt; eauto. unfold foreign_of in Hf. rewrite Ep in Hf. destruct (d_ty d) eqn:Et; try exact I. destruct d; cbn in Et; subst; discriminate Hf.
Qed.
