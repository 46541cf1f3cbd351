(** The constants and enum values of an accepted program are sound (C23), by an invariant over the whole analysis. *)
From Verif Require Import Base Scalar ConstInt ConstIntFacts EnumBits Expr KindSpec KindFacts Tokens Ast Parse Front Program FrontFacts TypeFacts ElabSpec ElabFacts ElabTypes ElabProgram ImportSpec P_Imports P_Cycles ConstSpec ConstFacts.
From Coq Require Import Lia.
Open Scope string_scope. Open Scope Z_scope. Open Scope list_scope.

Definition keep (p0 p : prog) : Prop := (size p0 <= size p)%nat /\ forall i f, fget p0 i = Some f -> exists f', fget p i = Some f' /\ f_type f' = f_type f.
Lemma keep_refl p : keep p p. Proof. split; [lia|]. eauto. Qed.
Lemma keep_trans p q r : keep p q -> keep q r -> keep p r.
Proof. intros [L A] [L' B]. split; [lia|]. intros i f E. destruct (A _ _ E) as (g & Eg & T). destruct (B _ _ Eg) as (h & Eh & T'). exists h. split; [exact Eh|congruence]. Qed.
Lemma keep_eq p q : p_store p = p_store q -> keep p q. Proof. intros S. split; [rewrite S; lia|]. intros i f E. exists f. unfold fget in *. rewrite <- S. auto. Qed.
Lemma keep_add p f : keep p (st_add p f).
Proof. split; [rewrite st_add_size; lia|]. intros i g E. exists g. split; [eapply ext_fget; [apply st_add_ext|exact E]|reflexivity]. Qed.
Lemma keep_set p0 p i g : keep p0 p -> (size p0 <= i)%nat \/ (forall f, f_type (g f) = f_type f) -> keep p0 (st_set p i g).
Proof.
  intros [L A] H. split; [rewrite st_set_size; exact L|]. intros j f E. destruct (A _ _ E) as (f' & E' & T). destruct (Nat.eq_dec i j) as [<-|N]; [|exists f'; rewrite st_set_other by exact N; auto].
  destruct H as [H|H]; [apply fget_size in E; lia|]. exists (g f'). split; [apply st_set_same; exact E'|]. rewrite H. exact T.
Qed.
Lemma resolved_keep p q : keep p q -> forall N t t0, resolved N p t = Ok t0 -> resolved N q t = Ok t0.
Proof.
  intros [_ A]. induction N as [|N IH]; intros t t0 R; destruct t; try exact R; try discriminate R. cbn [resolved] in *. destruct (fget p target) as [f|] eqn:E; [|discriminate R].
  destruct (A _ _ E) as (f' & -> & T). rewrite T. apply IH. exact R.
Qed.

Section Inv.
  Variables (en : env) (n : nat).
  Hypothesis objects : prelude_objects en.

  Definition types_ok (p : prog) : Prop := forall i f, fget p i = Some f -> type_sound (f_type f).
  Definition consts_ok (p : prog) (m : list (name * const)) : Prop := forall x c, mget x m = Some c -> const_sound en n p c.
  Definition sound (p : prog) : Prop := types_ok p /\ consts_ok p (p_consts p).
  (** [p0] is where the constants live; later fields may still be under construction. *)
  Definition inv (p0 p : prog) : Prop := consts_ok p0 (p_consts p) /\ keep p0 p /\ types_ok p.
  Lemma consts_keep p q m : keep p q -> consts_ok p m -> consts_ok q m.
  Proof. intros K H x c M. destruct (H _ _ M) as (t0 & R & E). exists t0. split; [eapply resolved_keep; eassumption|exact E]. Qed.
  Lemma inv_sound p0 p : inv p0 p -> sound p. Proof. intros (C & K & T). split; [exact T|]. eapply consts_keep; eassumption. Qed.
  Lemma sound_inv p : sound p -> inv p p. Proof. intros [T C]. split; [exact C|]. split; [apply keep_refl|exact T]. Qed.
  Lemma types_add p f : types_ok p -> type_sound (f_type f) -> types_ok (st_add p f).
  Proof.
    intros T H i g E. unfold fget, st_add in E. cbn [p_store] in E. destruct (Nat.lt_ge_cases i (size p)) as [L|L]; [rewrite nth_error_app1 in E by exact L; eapply T; exact E|].
    rewrite nth_error_app2 in E by exact L. destruct (i - size p)%nat as [|[|m]]; cbn in E; try discriminate E. injection E as <-. exact H.
  Qed.
  Lemma types_set p i g : types_ok p -> (forall f, fget p i = Some f -> type_sound (f_type (g f))) -> types_ok (st_set p i g).
  Proof.
    intros T H j f' E. destruct (Nat.eq_dec i j) as [<-|N]; [|rewrite st_set_other in E by exact N; eapply T; exact E].
    destruct (fget p i) as [f|] eqn:Ef; [rewrite (st_set_same _ _ _ _ Ef) in E; injection E as <-; apply H; reflexivity|].
    exfalso. assert (L : (i < size (st_set p i g))%nat) by (eapply fget_size; exact E). rewrite st_set_size in L. apply nth_error_None in Ef. lia.
  Qed.
  Lemma inv_add p0 p f : inv p0 p -> type_sound (f_type f) -> inv p0 (st_add p f).
  Proof. intros (C & K & T) H. split; [exact C|]. split; [eapply keep_trans; [exact K|apply keep_add]|apply types_add; assumption]. Qed.
  Lemma inv_calc p0 p i c : inv p0 p -> inv p0 (st_set p i (set_calc c)).
  Proof. intros (C & K & T). split; [exact C|]. split; [apply keep_set; [exact K|right; reflexivity]|]. apply types_set; [exact T|]. intros f E. cbn [set_calc f_type]. eapply T; exact E. Qed.

  (** ** Items of enums and bitfields *)
  Lemma value_of p sc e s e' : sound p -> cexpr en n p sc e (PScalar (PSome s)) = Ok e' -> value_sound e' (IsInt s).
  Proof. intros [T C] H O. destruct (expr_good en n p objects T C sc _ _ _ H O) as (t & t0 & k & _ & _ & _ & Sh & F & E). cbn in F. subst k. auto. Qed.
  Lemma mget_put {A} v w (x y : A) m : mget v (mput w x m) = Some y -> (v = w /\ y = x) \/ mget v m = Some y.
  Proof.
    intros H. destruct (name_eqb v w) eqn:E; [apply name_eqb_eq in E as ->; rewrite mget_put_same in H; left; split; congruence|]. apply name_eqb_neq in E. rewrite mget_put_other in H by exact E. auto.
  Qed.
  Lemma step_value o (s : escalar) ln le c k : value_sound le (IsInt (es_scalar s)) -> ci_parse (es_scalar s) k = Some c -> integer_op (bop o) = true -> is_bool_op o = false -> o <> BElvis ->
    value_sound (FBin o (FConst ln (FScalar s) le) (FInt c)) (IsInt (es_scalar s)).
  Proof.
    intros V C I B Ne O. assert (O' : operable le = true) by (destruct o; try discriminate I; cbn [operable] in O; apply Bool.andb_true_iff in O as [O _]; apply Bool.andb_true_iff in O as [O _]; exact O).
    destruct (V O') as [Sh E]. destruct (parse_ok _ _ _ C) as [Ty Okc]. cbn [shown]. rewrite B. split; [exact Sh|]. intros chk. apply eval_arith; [exact I|apply (eval_same _ _ le); [reflexivity|left; reflexivity|apply E]|].
    eapply eval_ok; [reflexivity|cbn; congruence|exact Okc].
  Qed.
  Lemma enum_sound p sc rep : sound p -> forall items last k dflt acc its, cenum en n p sc rep items last k dflt acc = Ok its ->
    (forall v e, mget v acc = Some (Some e) -> value_sound e (IsInt (es_scalar rep))) -> (forall ln le, last = Some (ln, le) -> value_sound le (IsInt (es_scalar rep))) ->
    forall v e, mget v its = Some (Some e) -> value_sound e (IsInt (es_scalar rep)).
  Proof.
    intros So. induction items as [|[x it] items IH]; intros last k dflt acc its H A L; cbn [cenum] in H; [apply Ok_inj in H; subst; exact A|].
    destruct (mget x acc); [discriminate H|]. destruct dflt; [discriminate H|]. destruct it as [| |e].
    - destruct last as [[ln le]|]; [|discriminate H]. destruct (ci_parse _ _) as [c|] eqn:C; [|discriminate H]. eapply IH; [exact H| |exact L].
      intros v e M. apply mget_put in M as [[-> Q]|M]; [|eapply A; exact M]. injection Q as ->. eapply step_value; try reflexivity; [eapply L; reflexivity|exact C|discriminate].
    - eapply IH; [exact H| |exact L]. intros v e M. apply mget_put in M as [[-> Q]|M]; [discriminate Q|eapply A; exact M].
    - destruct (cexpr _ _ _ _ _ _) as [e'| | |] eqn:E; cbn [bind] in H; try discriminate H. apply (value_of _ _ _ _ _ So) in E. eapply IH; [exact H| |intros ln le [= _ <-]; exact E].
      intros v e0 M. apply mget_put in M as [[-> Q]|M]; [injection Q as ->; exact E|eapply A; exact M].
  Qed.
  Lemma bits_sound p sc rep : sound p -> forall items last k acc its, cbits en n p sc rep items last k acc = Ok its ->
    (forall v e, mget v acc = Some e -> value_sound e (IsInt (es_scalar rep))) -> (forall ln le, last = Some (ln, le) -> value_sound le (IsInt (es_scalar rep))) ->
    forall v e, mget v its = Some e -> value_sound e (IsInt (es_scalar rep)).
  Proof.
    intros So. induction items as [|[x it] items IH]; intros last k acc its H A L; cbn [cbits] in H; [apply Ok_inj in H; subst; exact A|].
    destruct (mget x acc); [discriminate H|]. destruct it as [e|].
    - destruct (cexpr _ _ _ _ _ _) as [e'| | |] eqn:E; cbn [bind] in H; try discriminate H. apply (value_of _ _ _ _ _ So) in E. eapply IH; [exact H| |intros ln le [= _ <-]; exact E].
      intros v e0 M. apply mget_put in M as [[-> ->]|M]; [exact E|eapply A; exact M].
    - destruct last as [[ln le]|]; [|discriminate H]. destruct (ci_parse _ _) as [c|] eqn:C; [|discriminate H]. eapply IH; [exact H| |exact L].
      intros v e M. apply mget_put in M as [[-> ->]|M]; [|eapply A; exact M]. eapply step_value; try reflexivity; [eapply L; reflexivity|exact C|discriminate].
  Qed.

  (** ** Types and fields *)
  Lemma cend_inv p0 sc calc i p p' : cend en n sc calc i p = Ok p' -> inv p0 p -> inv p0 p'.
  Proof.
    unfold cend. intros H V. destruct (fget p i) as [f|]; [|discriminate H]. destruct calc as [e|]; [|apply Ok_inj in H; subst; apply inv_calc; exact V].
    destruct (into_partial n p (f_type f)); cbn [bind] in H; try discriminate H. destruct (cexpr _ _ _ _ _ _); cbn [bind] in H; try discriminate H. apply Ok_inj in H. subst. apply inv_calc. exact V.
  Qed.
  Lemma cends_inv p0 sc : forall l p p', cends en n sc l p = Ok p' -> inv p0 p -> inv p0 p'.
  Proof. induction l as [|[i c] l IH]; intros p p' H V; cbn [cends] in H; [apply Ok_inj in H; subst; exact V|]. destruct (cend en n sc c i p) as [q| | |] eqn:E; cbn [bind] in H; try discriminate H. eapply IH; [exact H|]. eapply cend_inv; eassumption. Qed.
  Lemma cinl_sound p sc t u t' : cinl en n p sc t u = Ok t' -> type_sound t'.
  Proof.
    destruct t; cbn [cinl]; intros H; try (apply Ok_inj in H; subst; exact Logic.I).
    - destruct (mget _ _); [|discriminate H]. destruct (fget _ _); [|discriminate H]. destruct (type_check _ _); cbn [bind] in H; try discriminate H. match type of H with bind ?r _ = _ => destruct r end; cbn [bind] in H; try discriminate H. apply Ok_inj in H. subst. exact Logic.I.
    - destruct u; discriminate H.
    - destruct u; discriminate H.
    - destruct u; discriminate H.
    - match type of H with bind ?r _ = _ => destruct r end; cbn [bind] in H; try discriminate H. match type of H with bind ?r _ = _ => destruct r end; cbn [bind] in H; try discriminate H. apply Ok_inj in H. subst. exact Logic.I.
  Qed.
  Definition Tp (t : atype) : Prop := forall p0 sc u p t' p', ctype en n sc t u p = Ok (t', p') -> inv p0 p -> inv p0 p' /\ type_sound t'.
  Definition Fp (f : afield) : Prop := forall p0 sc u i p p', cmid en n sc f u i p = Ok p' -> (size p0 <= i)%nat -> inv p0 p -> inv p0 p'.
  Lemma type_inv : (forall t, Tp t) /\ (forall f, Fp f).
  Proof.
    apply (syntax_ind (fun _ => True) Tp Fp); unfold Tp, Fp; try (intros; exact Logic.I).
    all: try (intros; match goal with H : ctype _ _ _ _ _ _ = Ok _ |- _ => cbn [ctype] in H; match type of H with bind ?r _ = _ => destruct r eqn:? end; cbn [bind] in H; try discriminate H; apply Ok_inj in H; injection H as <- <-; split; [assumption|eapply cinl_sound; eassumption] end).
    - intros rep items _ p0 sc u p t' p' H V. cbn [ctype] in H. destruct u; try discriminate H. destruct (cenum _ _ _ _ _ _ _ _ _ _) as [its| | |] eqn:E; cbn [bind] in H; try discriminate H. apply Ok_inj in H. injection H as <- <-. split; [exact V|].
      cbn [type_sound]. eapply enum_sound; [eapply inv_sound; exact V|exact E|discriminate|discriminate].
    - intros rep items _ p0 sc u p t' p' H V. cbn [ctype] in H. destruct u; try discriminate H. destruct (cbits _ _ _ _ _ _ _ _ _) as [its| | |] eqn:E; cbn [bind] in H; try discriminate H. apply Ok_inj in H. injection H as <- <-. split; [exact V|].
      cbn [type_sound]. eapply bits_sound; [eapply inv_sound; exact V|exact E|discriminate|discriminate].
    - intros len flags items _ IH p0 sc u p t' p' H V. rewrite ctype_cont in H.
      assert (It : forall tagged s s', citems en n sc tagged items s = Ok s' -> inv p0 (cs_prog s) -> inv p0 (cs_prog s')).
      { clear H. intros tagged. induction items as [|it l IHl]; intros s s' H Vs; [apply Ok_inj in H; subst; exact Vs|]. inversion IH as [|? ? I1 I2]; subst. destruct it as [e|x f].
        - rewrite citems_pad in H. cbv zeta in H. destruct tagged; [discriminate H|]. destruct (cexpr _ _ _ _ _ _); cbn [bind] in H; try discriminate H. eapply IHl; [exact I2|exact H|]. cbn [cs_prog]. apply inv_add; [exact Vs|exact Logic.I].
        - rewrite citems_field in H. cbv zeta in H. destruct (mget x (cs_items s)); [discriminate H|]. match type of H with bind ?r _ = _ => destruct r as [p1| | |] eqn:E1 end; cbn [bind] in H; try discriminate H.
          destruct (cs_uncond s && tagged); [discriminate H|]. eapply IHl; [exact I2|exact H|]. cbn [cs_prog]. eapply I1; [exact E1|apply Vs|]. apply inv_add; [exact Vs|exact Logic.I]. }
      assert (K : (let! len' := copt en n p sc len (PScalar (PDefaults U64)) in let! tagged := cflags flags false in if tagged && negb (match u with ForType _ => true | _ => false end) then Err XToplevel else
        let! s := citems en n sc tagged items {| cs_prog := p; cs_items := []; cs_fields := []; cs_ends := []; cs_uncond := false; cs_pads := 0 |} in
        let! p2 := cends en n (frame0 :: {| fr_fields := cs_fields s; fr_inputs := [] |} :: sc) (cs_ends s) (cs_prog s) in Ok (FCont len' (cs_items s) tagged, p2)) = Ok (t', p')) by (destruct u; solve [exact H|discriminate H]).
      clear H. destruct (copt _ _ _ _ _ _); cbn [bind] in K; try discriminate K. destruct (cflags flags false) as [tagged| | |]; cbn [bind] in K; try discriminate K. destruct (tagged && _); [discriminate K|].
      match type of K with bind ?r _ = _ => destruct r as [s| | |] eqn:E1 end; cbn [bind] in K; try discriminate K. match type of K with bind ?r _ = _ => destruct r as [p2| | |] eqn:E2 end; cbn [bind] in K; try discriminate K.
      apply Ok_inj in K. injection K as <- <-. split; [|exact Logic.I]. eapply cends_inv; [exact E2|]. eapply It; [exact E1|exact V].
    - intros t calc flags cond xs IH _ _ _ p0 sc u i p p' H L V. rewrite cmid_eq in H. destruct (ctype en n sc t u p) as [[t' p1]| | |] eqn:E; cbn [bind] in H; try discriminate H. destruct (IH _ _ _ _ _ _ E V) as [(C1 & K1 & T1) Ts].
      destruct (copt _ _ _ _ _ _); cbn [bind] in H; try discriminate H. destruct (cxforms _ _ _ _ _); cbn [bind] in H; try discriminate H. destruct flags; [|discriminate H]. apply Ok_inj in H. subst.
      split; [exact C1|]. split; [apply keep_set; [exact K1|left; exact L]|]. apply types_set; [exact T1|]. intros f _. exact Ts.
  Qed.

  (** ** Declarations *)
  Lemma params_inv p0 sc : forall l fr acc p fr' ps p', cparams en n sc l fr acc p = Ok (fr', ps, p') -> inv p0 p -> inv p0 p'.
  Proof.
    induction l as [|a l IH]; intros fr acc p fr' ps p' H V; cbn [cparams] in H; [apply Ok_inj in H; injection H as <- <- <-; exact V|].
    destruct (ctype _ _ _ _ _ _) as [[t p1]| | |] eqn:E; cbn [bind] in H; try discriminate H. match type of H with bind ?r _ = _ => destruct r end; cbn [bind] in H; try discriminate H.
    eapply IH; [exact H|]. eapply (proj1 type_inv); [exact E|exact V].
  Qed.
  Lemma type_params_inv p0 i args p fr p' : type_params en n i args p = Ok (fr, p') -> inv p0 p -> inv p0 p'.
  Proof.
    unfold type_params. intros H V. destruct (cparams _ _ _ _ _ _ _) as [[[fr' ps] q]| | |] eqn:E; cbn [bind] in H; try discriminate H. apply Ok_inj in H. injection H as <- <-.
    destruct (params_inv _ _ _ _ _ _ _ _ _ E V) as (C & K & T). split; [exact C|]. split; [apply keep_set; [exact K|right; reflexivity]|]. apply types_set; [exact T|]. intros f Ef. cbn [set_params f_type]. eapply T; exact Ef.
  Qed.
  Lemma type_body_inv p0 fr i x f p p' : type_body en n fr i x f p = Ok p' -> (size p0 <= i)%nat -> inv p0 p -> inv p0 p'.
  Proof.
    unfold type_body. intros H L V. destruct (cmid _ _ _ _ _ _ _) as [q| | |] eqn:E; cbn [bind] in H; try discriminate H. eapply cend_inv; [exact H|]. eapply (proj2 type_inv); eassumption.
  Qed.
  Lemma type_decl_inv p0 x p i p' : type_decl x p = Ok (i, p') -> inv p0 p -> inv p0 p' /\ i = size p.
  Proof.
    unfold type_decl. intros H V. destruct (mget x (p_types p)); [discriminate H|]. apply Ok_inj in H. injection H as <- <-. split; [|reflexivity].
    destruct (inv_add _ _ (placeholder x true) V Logic.I) as (C & K & T). split; [exact C|]. split; [eapply keep_trans; [exact K|apply keep_eq; reflexivity]|]. intros j g E. exact (T j g E).
  Qed.
  Lemma into_resolved p : forall m t xt, into_partial m p t = Ok xt -> exists t0, resolved m p t = Ok t0.
  Proof.
    induction m as [|m IH]; intros t xt H; [discriminate H|]. destruct t; try (eexists; reflexivity). cbn [into_partial resolved] in *. destruct (fget p target) as [f|]; [|discriminate H]. eapply IH. exact H.
  Qed.
  Lemma const_decl_sound x t v p p' : const_decl en n x t v p = Ok p' -> sound p -> sound p' /\ keep p p'.
  Proof.
    unfold const_decl. intros H So. destruct (mget x (p_consts p)); [discriminate H|].
    destruct (ctype _ _ _ _ _ _) as [[t' q]| | |] eqn:E; cbn [bind] in H; try discriminate H. destruct (proj1 type_inv _ _ _ _ _ _ _ E (sound_inv _ So)) as [V Ts].
    assert (K : (let! xt := into_partial n q t' in let! v' := cexpr en n q scope0 v xt in Ok (with_consts q (mput x {| c_name := x; c_type := t'; c_value := v' |} (p_consts q)))) = Ok p') by (destruct t'; solve [exact H|discriminate H]). clear H.
    destruct (into_partial n q t') as [xt| | |] eqn:X; cbn [bind] in K; try discriminate K. destruct (cexpr _ _ _ _ _ _) as [v'| | |] eqn:Ev; cbn [bind] in K; try discriminate K. apply Ok_inj in K. subst p'.
    destruct (inv_sound _ _ V) as [T C]. assert (Kq : forall m, keep q (with_consts q m)) by (intros; apply keep_eq; reflexivity). split; [split; [exact T|]|eapply keep_trans; [apply V|apply Kq]].
    intros y c M. apply mget_put in M as [[-> ->]|M]; [|eapply consts_keep; [apply Kq|exact C|exact M]].
    destruct (into_resolved _ _ _ _ X) as [t0 R]. exists t0. cbn [c_type c_value]. split; [eapply resolved_keep; [apply Kq|exact R]|]. intros O.
    destruct (expr_good en n q objects T C scope0 _ _ _ Ev O) as (tv & tv0 & k & _ & _ & [Kk _] & Sh & F & Evl). exists k. split; [|auto]. split; [|eapply resolved_sound; [exact T|exact R|exact Ts]].
    eapply into_fits; eassumption.
  Qed.
  Lemma early_sound : forall l p p', early en n l p = Ok p' -> sound p -> sound p' /\ keep p p'.
  Proof.
    induction l as [|d l IH]; intros p p' H So; cbn [early] in H; [apply Ok_inj in H; subst; split; [exact So|apply keep_refl]|]. destruct d as [x args f| | |x t v]; try (apply IH; assumption).
    - destruct (is_def f); [|apply IH; assumption]. destruct (type_decl x p) as [[i p1]| | |] eqn:E1; cbn [bind] in H; try discriminate H. destruct (type_params en n i args p1) as [[fr p2]| | |] eqn:E2; cbn [bind] in H; try discriminate H.
      destruct (type_body en n fr i x f p2) as [p3| | |] eqn:E3; cbn [bind] in H; try discriminate H. destruct (type_decl_inv _ _ _ _ _ E1 (sound_inv _ So)) as [V1 ->]. pose proof (type_params_inv _ _ _ _ _ _ E2 V1) as V2.
      pose proof (type_body_inv _ _ _ _ _ _ _ E3 (Nat.le_refl _) V2) as V3. destruct (IH _ _ H (inv_sound _ _ V3)) as [S' K']. split; [exact S'|]. eapply keep_trans; [apply V3|exact K'].
    - destruct (const_decl en n x t v p) as [p1| | |] eqn:E1; cbn [bind] in H; try discriminate H. destruct (const_decl_sound _ _ _ _ _ E1 So) as [S1 K1]. destruct (IH _ _ H S1) as [S' K']. split; [exact S'|]. eapply keep_trans; eassumption.
  Qed.
  Lemma late_names_inv p0 : forall l p q p', late_names l p = Ok (q, p') -> inv p0 p -> inv p0 p' /\ Forall (fun e => (size p0 <= fst (fst (fst e)))%nat) q.
  Proof.
    induction l as [|d l IH]; intros p q p' H V; cbn [late_names] in H; [apply Ok_inj in H; injection H as <- <-; auto|]. destruct d as [x args f| | |x t v]; try (eapply IH; eassumption).
    destruct (is_def f); [eapply IH; eassumption|]. destruct (type_decl x p) as [[i p1]| | |] eqn:E1; cbn [bind] in H; try discriminate H. destruct (late_names l p1) as [[q1 p2]| | |] eqn:E2; cbn [bind] in H; try discriminate H.
    apply Ok_inj in H. injection H as <- <-. destruct (type_decl_inv _ _ _ _ _ E1 V) as [V1 ->]. destruct (IH _ _ _ E2 V1) as [V2 F2]. split; [exact V2|]. constructor; [apply V|exact F2].
  Qed.
  Lemma late_params_inv p0 : forall l p q p', late_params en n l p = Ok (q, p') -> inv p0 p -> Forall (fun e => (size p0 <= fst (fst (fst e)))%nat) l -> inv p0 p' /\ Forall (fun e : frame * nat * name * afield => (size p0 <= snd (fst (fst e)))%nat) q.
  Proof.
    induction l as [|[[[i x] args] f] l IH]; intros p q p' H V F; cbn [late_params] in H; [apply Ok_inj in H; injection H as <- <-; auto|]. inversion F as [|? ? F1 F2]; subst.
    destruct (type_params en n i args p) as [[fr p1]| | |] eqn:E1; cbn [bind] in H; try discriminate H. destruct (late_params en n l p1) as [[q1 p2]| | |] eqn:E2; cbn [bind] in H; try discriminate H.
    apply Ok_inj in H. injection H as <- <-. destruct (IH _ _ _ E2 (type_params_inv _ _ _ _ _ _ E1 V) F2) as [V' F']. split; [exact V'|]. constructor; [exact F1|exact F'].
  Qed.
  Lemma late_bodies_inv p0 : forall l p p', late_bodies en n l p = Ok p' -> inv p0 p -> Forall (fun e : frame * nat * name * afield => (size p0 <= snd (fst (fst e)))%nat) l -> inv p0 p'.
  Proof.
    induction l as [|[[[fr i] x] f] l IH]; intros p p' H V F; cbn [late_bodies] in H; [apply Ok_inj in H; subst; exact V|]. inversion F as [|? ? F1 F2]; subst.
    destruct (type_body en n fr i x f p) as [p1| | |] eqn:E1; cbn [bind] in H; try discriminate H. eapply IH; [exact H| |exact F2]. eapply type_body_inv; [exact E1|exact F1|exact V].
  Qed.
  Variable rs : resolver.
  Lemma ffi_sound : forall l p p', ffi_decls rs l p = Ok p' -> sound p -> sound p' /\ keep p p'.
  Proof.
    induction l as [|d l IH]; intros p p' H So; cbn [ffi_decls] in H; [apply Ok_inj in H; subst; split; [exact So|apply keep_refl]|]. destruct d as [ | |x k| ]; try (apply IH; assumption).
    destruct (ffi_decl rs x k p) as [p1| | |] eqn:E; cbn [bind] in H; try discriminate H.
    assert (K : sound p1 /\ keep p p1).
    { clear H. unfold ffi_decl in E. destruct k.
      - destruct (r_xform rs x) as [[o|]| | |]; cbn [bind] in E; try discriminate E. destruct (mget x (p_xforms p)); [discriminate E|]. apply Ok_inj in E. subst.
        assert (K : keep p (with_xforms p (mput x o (p_xforms p)))) by (apply keep_eq; reflexivity). split; [|exact K]. split; [apply So|]. eapply consts_keep; [exact K|apply So].
      - destruct (r_type rs x) as [[o|]| | |]; cbn [bind] in E; try discriminate E. destruct (mget x (p_types p)); [discriminate E|]. apply Ok_inj in E. subst.
        match goal with |- sound (with_types (st_add _ ?f) ?m) /\ _ => assert (K : keep p (with_types (st_add p f) m)) by (eapply keep_trans; [apply (keep_add p f)|apply keep_eq; reflexivity]); pose proof (types_add p f (proj1 So) Logic.I) as T end.
        split; [|exact K]. split; [exact T|]. eapply consts_keep; [exact K|apply So].
      - destruct (r_func rs x) as [[o|]| | |]; cbn [bind] in E; try discriminate E. destruct (mget x (p_funcs p)); [discriminate E|]. apply Ok_inj in E. subst.
        assert (K : keep p (with_funcs p (mput x o (p_funcs p)))) by (apply keep_eq; reflexivity). split; [|exact K]. split; [apply So|]. eapply consts_keep; [exact K|apply So]. }
    destruct K as [S1 K1]. destruct (IH _ _ H S1) as [S' K']. split; [exact S'|]. eapply keep_trans; eassumption.
  Qed.
  (** Imported constants. *)
  Definition cache_ok (st : list field) (c : cache) : Prop := forall x q, mget x c = Some q -> consts_ok (as_prog st) (p_consts q).
  Lemma consts_store p q m : p_store p = p_store q -> consts_ok p m -> consts_ok q m. Proof. intros S. apply consts_keep, keep_eq, S. Qed.
  Lemma items_sound q : forall l p p', import_items q l p = Ok p' -> consts_ok (as_prog (p_store p)) (p_consts q) -> sound p -> sound p' /\ p_store p' = p_store p.
  Proof.
    induction l as [|[x alias] l IH]; intros p p' H Cq So; cbn [import_items] in H; [apply Ok_inj in H; subst; auto|]. cbv zeta in H. set (y := match alias with Some y => y | None => x end) in *.
    destruct (mget x (p_types q)) as [i|].
    { apply IH in H; [exact H|exact Cq|]. split; [apply So|]. eapply consts_store; [|apply So]. reflexivity. }
    destruct (mget x (p_consts q)) as [c|] eqn:Mc.
    { apply IH in H; [exact H|exact Cq|]. split; [apply So|]. intros z c' M. cbn [with_consts p_consts] in M. apply mget_put in M as [[-> ->]|M].
      - refine (consts_store (as_prog (p_store p)) _ (p_consts q) _ Cq _ _ Mc). reflexivity.
      - refine (consts_store p _ (p_consts p) _ (proj2 So) _ _ M). reflexivity. }
    destruct (mget x (p_xforms q)) as [g|]; [|discriminate H]. apply IH in H; [exact H|exact Cq|]. split; [apply So|]. eapply consts_store; [|apply So]. reflexivity.
  Qed.
  Lemma imports_sound c : forall a p p', import_decls rs c a p = Ok p' -> cache_ok (p_store p) c -> sound p -> sound p' /\ p_store p' = p_store p.
  Proof.
    induction a as [|d a IH]; intros p p' H Cc So; cbn [import_decls] in H; [apply Ok_inj in H; subst; auto|]. destruct d as [? ? ?|items from|? ?|? ? ?]; try (eapply IH; eassumption).
    destruct (r_norm rs from) as [x| | |]; cbn [bind] in H; try discriminate H. destruct (mget x c) as [q|] eqn:M; [|discriminate H]. destruct (import_items q items p) as [p1| | |] eqn:E; cbn [bind] in H; try discriminate H.
    destruct (items_sound _ _ _ _ E (Cc _ _ M) So) as [S1 E1]. rewrite <- E1 in Cc. destruct (IH _ _ H Cc S1) as [S2 E2]. split; [exact S2|congruence].
  Qed.
  Lemma cache_keep st p c : keep (as_prog st) p -> cache_ok st c -> cache_ok (p_store p) c.
  Proof. intros K H x q M. eapply consts_keep; [|exact (H x q M)]. eapply keep_trans; [exact K|apply keep_eq; reflexivity]. Qed.
  Lemma imported_sound a c st p : from_ast_imported en n rs a c st = Ok p -> types_ok (as_prog st) -> cache_ok st c -> sound p /\ keep (as_prog st) p.
  Proof.
    unfold from_ast_imported. intros H T0 C0. set (q0 := {| p_store := st |}) in *. destruct (add_prelude_spec (r_prelude rs) q0) as (P1 & _ & P3 & _). set (q1 := add_prelude (r_prelude rs) q0) in *.
    destruct (ffi_decls rs a q1) as [q2| | |] eqn:E2; cbn [bind] in H; try discriminate H. destruct (import_decls rs c a q2) as [q3| | |] eqn:E3; cbn [bind] in H; try discriminate H.
    destruct (early en n a q3) as [q4| | |] eqn:E4; cbn [bind] in H; try discriminate H. destruct (late_names a q4) as [[l q5]| | |] eqn:E5; cbn [bind] in H; try discriminate H.
    destruct (late_params en n l q5) as [[l' q6]| | |] eqn:E6; cbn [bind] in H; try discriminate H. destruct (late_bodies en n l' q6) as [q7| | |] eqn:E7; cbn [bind] in H; try discriminate H.
    assert (S1 : sound q1). { split; [intros i f E; unfold fget in E; rewrite P1 in E; exact (T0 i f E)|]. intros x k M. rewrite P3 in M. discriminate M. }
    assert (K1 : keep (as_prog st) q1) by (apply keep_eq; rewrite P1; reflexivity).
    destruct (ffi_sound _ _ _ E2 S1) as [S2 K2]. pose proof (keep_trans _ _ _ K1 K2) as K2'. destruct (imports_sound _ _ _ _ E3 (cache_keep _ _ _ K2' C0) S2) as [S3 K3]. destruct (early_sound _ _ _ E4 S3) as [S4 K4].
    destruct (late_names_inv _ _ _ _ _ E5 (sound_inv _ S4)) as [V5 F5]. destruct (late_params_inv _ _ _ _ _ E6 V5 F5) as [V6 F6]. pose proof (late_bodies_inv _ _ _ _ E7 V6 F6) as V7. destruct (inv_sound _ _ V7) as [T7 C7].
    pose proof H as H'. apply scan_spec in H' as (Tb & Sz & _). apply scan_marks in H as [A _].
    assert (K8 : keep q7 p). { split; [lia|]. intros i f E. destruct (alike_get _ _ _ _ A E) as (g & Eg & _ & Tg). eauto. }
    split; [split|].
    - intros i f E. destruct (alike_get _ _ _ _ (alike_sym _ _ A) E) as (g & Eg & _ & Tg). rewrite <- Tg. eapply T7. exact Eg.
    - rewrite (tb_consts _ _ Tb). eapply consts_keep; [exact K8|exact C7].
    - eapply keep_trans; [exact K2'|]. eapply keep_trans; [apply (keep_eq q2 q3); symmetry; exact K3|]. eapply keep_trans; [exact K4|]. eapply keep_trans; [apply V7|exact K8].
  Qed.
  Lemma load_sound : forall k a c st log log' c' st', load en n rs k a c st log = (log', Ok (c', st')) -> types_ok (as_prog st) -> cache_ok st c -> types_ok (as_prog st') /\ cache_ok st' c' /\ keep (as_prog st) (as_prog st').
  Proof.
    induction k as [|k IHk]; [intros; discriminate|]. induction a as [|d a IHa]; intros c st log log' c' st' H T C.
    - rewrite load_nil in H. injection H as <- <- <-. split; [exact T|]. split; [exact C|apply keep_refl].
    - rewrite load_cons in H. destruct d as [? ? ?|items from|? ?|? ? ?]; try (eapply IHa; eassumption). destruct (r_norm rs from) as [x| | |] eqn:Ex; cbn [bindl] in H; try discriminate H.
      destruct (mget x c); [eapply IHa; eassumption|]. destruct (r_load rs x) as [[text|]| | |] eqn:El; cbn [bindl] in H; try discriminate H. destruct (parse text) as [b| | |] eqn:Ep; cbn [parsed bindl] in H; try discriminate H.
      destruct (load en n rs k b c st (log ++ [x])) as [log1 [[c1 st1]| | |]] eqn:E1; cbn [bindl] in H; try discriminate H.
      destruct (from_ast_imported en n rs b c1 st1) as [q| | |] eqn:Eq; cbn [bindl] in H; try discriminate H.
      destruct (IHk _ _ _ _ _ _ _ E1 T C) as (T1 & C1 & K1). destruct (imported_sound _ _ _ _ Eq T1 C1) as [[Tq Cq] Kq]. assert (Ks : keep q (as_prog (p_store q))) by (apply keep_eq; reflexivity).
      destruct (IHa _ _ _ _ _ _ H) as (T2 & C2 & K2).
      + exact Tq.
      + intros y r M. apply mget_put in M as [[-> ->]|M]; [eapply consts_keep; [exact Ks|exact Cq]|]. exact (cache_keep _ _ _ Kq C1 y r M).
      + split; [exact T2|]. split; [exact C2|]. eapply keep_trans; [exact K1|]. eapply keep_trans; [exact Kq|]. eapply keep_trans; [exact Ks|exact K2].
  Qed.
  Theorem program_sound k a p : from_ast en n rs k a = Ok p -> sound p.
  Proof.
    unfold from_ast. intros H. destruct (load en n rs k a [] [] []) as [log [[c st]| | |]] eqn:L; cbn [snd bind] in H; try discriminate H.
    destruct (load_sound _ _ _ _ _ _ _ _ L) as (T & C & _); [intros [|i] f E; discriminate E|intros x q M; discriminate M|]. eapply imported_sound; eassumption.
  Qed.
End Inv.
