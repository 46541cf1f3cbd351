(** Whole programs (C28): every declaration ends up as written. *)
From Verif Require Import Base Scalar ConstInt ConstIntFacts Tokens Ast Parse Front Program FrontFacts ElabSpec ElabFacts ElabTypes.
From Coq Require Import Lia.
Open Scope list_scope.

Definition prefix (p p' : prog) : Prop := exists l, p_store p' = p_store p ++ l.
Lemma prefix_refl p : prefix p p. Proof. exists []. rewrite app_nil_r. reflexivity. Qed.
Lemma prefix_trans p q r : prefix p q -> prefix q r -> prefix p r. Proof. intros [l E] [l' E']. exists (l ++ l'). rewrite E', E, app_assoc. reflexivity. Qed.
Lemma prefix_fget p p' i f : prefix p p' -> fget p i = Some f -> fget p' i = Some f.
Proof. intros [l E] H. unfold fget in *. rewrite E. rewrite nth_error_app1; [exact H|]. apply nth_error_Some. congruence. Qed.
Lemma prefix_size p p' : prefix p p' -> (size p <= size p')%nat. Proof. intros [l E]. rewrite E, app_length. lia. Qed.
Lemma prefix_back p p' i : prefix p p' -> (i < size p)%nat -> fget p' i = fget p i.
Proof. intros [l E] L. unfold fget. rewrite E. apply nth_error_app1. exact L. Qed.
Lemma agree_prefix lo hi p q r : prefix p q -> agree lo hi q r -> (hi <= size p)%nat -> agree lo hi p r.
Proof. intros P A L i f B E. apply A; [exact B|]. eapply prefix_fget; eassumption. Qed.
Lemma agree_sub lo hi lo' hi' p q : agree lo hi p q -> (lo <= lo')%nat -> (hi' <= hi)%nat -> agree lo' hi' p q.
Proof. intros A L1 L2 i f B E. apply A; [lia|exact E]. Qed.

Definition clean_args (l : list targ) : Prop := Forall (fun a => clean_type (ta_type a)) l.
Definition clean_decl (d : adecl) : Prop :=
  match d with DType _ args f => clean_args args /\ clean_field f | DConst _ t _ => clean_type t | _ => True end.

Section Conv.
  Variables (en : env) (n : nat).

  (** ** One type *)
  Lemma cparams_spec sc : forall l fr acc p fr' ps p', cparams en n sc l fr acc p = Ok (fr', ps, p') -> clean_args l ->
    forall I, scoped (fr :: sc) [] I -> exists ps', ps = acc ++ ps' /\ ext p p' /\ scoped (fr' :: sc) [] (inputs ps' ++ I) /\
      forall p'', grow p' p'' -> agree (size p) (size p') p' p'' -> params_elab n p'' I l ps'.
  Proof.
    induction l as [|[x t d] l IH]; intros fr acc p fr' ps p' H C I Hs.
    - apply Ok_inj in H. injection H as <- <- <-. exists []. rewrite app_nil_r. split; [reflexivity|]. split; [apply ext_refl|]. split; [exact Hs|]. intros. constructor.
    - cbn [cparams ta_name ta_type ta_default] in H. inversion C as [|? ? Ct Cl]; subst. cbn [ta_type] in Ct.
      destruct (ctype en n (fr :: sc) t ForExpr p) as [[t' p1]| | |] eqn:Et; cbn [bind] in H; try discriminate H. destruct (ctype_elab en n t _ _ _ _ _ Et Ct) as [X1 K1].
      match type of H with bind ?r _ = _ => destruct r as [d'| | |] eqn:Ed; cbn [bind] in H; try discriminate H end.
      assert (Hs' : scoped ({| fr_fields := fr_fields fr; fr_inputs := mput x t' (fr_inputs fr) |} :: sc) [] ((x, t') :: I)).
      { intros y. destruct (Hs y) as [A B]. cbn [resolve_field resolve_input fr_fields fr_inputs] in *. split; [exact A|]. cbn [mget]. destruct (name_eqb y x) eqn:E.
        - apply name_eqb_eq in E as ->. rewrite mget_put_same. reflexivity.
        - apply name_eqb_neq in E. rewrite mget_put_other by exact E. exact B. }
      destruct (IH _ _ _ _ _ _ H Cl _ Hs') as (ps' & -> & X2 & S2 & K2). exists ({| pm_name := x; pm_type := t'; pm_default := d' |} :: ps').
      split; [rewrite <- app_assoc; reflexivity|]. split; [eapply ext_trans; eassumption|]. split.
      + unfold inputs in *. cbn [map rev pm_name pm_type]. rewrite <- app_assoc. exact S2.
      + intros p'' G A. pose proof (ext_size _ _ X1). pose proof (ext_size _ _ X2). constructor; cbn [pm_name pm_type pm_default]; [reflexivity| | |].
        * apply K1; [exact Hs|eapply grow_trans; [apply ext_grow; exact X2|exact G]|]. eapply agree_prefix; [apply X2| |lia]. eapply agree_sub; [exact A|lia|lia].
        * destruct d as [e|]; [|apply Ok_inj in Ed; subst; exact Logic.I]. destruct (into_partial n p1 t') as [xt| | |]; cbn [bind] in Ed; try discriminate Ed.
          destruct (cexpr en n p1 _ e xt) as [e'| | |] eqn:Ee; cbn [bind] in Ed; try discriminate Ed. apply Ok_inj in Ed. subst. cbn.
          eapply cexpr_mirror; [exact Hs'|eapply grow_trans; [apply ext_grow; exact X2|exact G]|exact Ee].
        * apply K2; [exact G|]. eapply agree_sub; [exact A|lia|lia].
  Qed.
  Lemma type_params_spec i args p fr p' : type_params en n i args p = Ok (fr, p') -> clean_args args -> exists ps p1, p' = st_set p1 i (set_params ps) /\ ext p p1 /\
    scoped (fr :: scope0) [] (inputs ps) /\ forall p'', grow p1 p'' -> agree (size p) (size p1) p1 p'' -> params_elab n p'' [] args ps.
  Proof.
    unfold type_params. intros H C. destruct (cparams en n scope0 args frame0 [] p) as [[[fr0 ps] p1]| | |] eqn:E; cbn [bind] in H; try discriminate H. apply Ok_inj in H. injection H as <- <-.
    destruct (cparams_spec _ _ _ _ _ _ _ _ E C []) as (ps' & -> & X & S' & K); [intros x; split; reflexivity|]. cbn [app] in *. rewrite app_nil_r in S'. exists ps', p1. auto.
  Qed.
  Definition calc_rel (p : prog) (I : list (name * fty)) (f : afield) (c : option fexpr) : Prop := opt_rel (mirror n p [] I) (calc_of f) c.
  Lemma type_body_spec fr i x f p p' : type_body en n fr i x f p = Ok p' -> clean_field f -> exists t c us k p1, p' = st_set (st_set p1 i (set_mid t c us)) i (set_calc k) /\ ext p p1 /\
    forall I p'', scoped (fr :: scope0) [] I -> grow p1 p'' -> grow p' p'' -> agree (size p) (size p1) p1 p'' -> body_rel n p'' [] I (Some x) f t c us /\ calc_rel p'' I f k.
  Proof.
    unfold type_body. intros H C. destruct (cmid en n (fr :: scope0) f (ForType x) i p) as [p2| | |] eqn:E; cbn [bind] in H; try discriminate H.
    destruct (cmid_elab en n f _ _ _ _ _ E C) as (t & c & us & p1 & -> & X & K). apply cend_spec in H as (g & k & Eg & -> & Kc). exists t, c, us, k, p1. split; [reflexivity|]. split; [exact X|].
    intros I p'' Hs G1 G2 A. split; [apply K; assumption|]. apply Kc; [exact Hs|]. eapply grow_trans; [apply st_calc_grow|exact G2].
  Qed.
  (** The finished field. *)
  Definition finished (x : name) (ps : list param) (t : fty) (c : option fexpr) (us : list xuse) (k : option fexpr) : field :=
    set_calc k (set_mid t c us (set_params ps (placeholder x true))).
  Lemma finish_type p x args f i fd ps t c us k : mget x (p_types p) = Some i -> fget p i = Some fd -> same (finished x ps t c us k) fd ->
    params_elab n p [] args ps -> body_rel n p [] (inputs ps) (Some x) f t c us -> calc_rel p (inputs ps) f k -> type_elab n p x args f.
  Proof.
    intros Ei Ef [(S1 & S2 & S3 & S4 & S5 & S6 & S7) S8] P B K. cbn in S1, S2, S3, S4, S5, S6, S7, S8. exists i, fd. rewrite S1, S2, S3, S4, S5, S6, S7, S8.
    split; [exact Ei|]. split; [exact Ef|]. split; [reflexivity|]. split; [reflexivity|]. split; [reflexivity|]. split; [exact P|].
    destruct f as [ty calc flags cond xs]. destruct B as (B1 & B2 & B3 & B4). cbn in K. auto.
  Qed.
  Lemma type_decl_spec x p i p' : type_decl x p = Ok (i, p') -> mget x (p_types p) = None /\ i = size p /\
    p' = with_types (st_add p (placeholder x true)) (p_types p ++ [(x, i)]) /\ grow p p' /\ prefix p p'.
  Proof.
    unfold type_decl. destruct (mget x (p_types p)) eqn:M; [discriminate|]. intros H. apply Ok_inj in H. injection H as <- <-. cbn [p_types st_add]. rewrite mput_new by exact M.
    split; [reflexivity|]. split; [reflexivity|]. split; [reflexivity|]. split; [|exists [placeholder x true]; reflexivity].
    constructor; cbn [with_types p_types p_consts p_xforms p_funcs st_add]; auto.
    - intros y j E. rewrite mget_app, E. reflexivity.
    - intros j f E _. exists f. split; [|reflexivity]. exact (ext_fget _ _ _ _ (st_add_ext p (placeholder x true)) E).
  Qed.
  Lemma one_type x args f p i p0 fr p1 p2 : type_decl x p = Ok (i, p0) -> type_params en n i args p0 = Ok (fr, p1) -> type_body en n fr i x f p1 = Ok p2 ->
    clean_args args -> clean_field f ->
    mget x (p_types p) = None /\ grow p p2 /\ prefix p p2 /\ p_types p2 = p_types p ++ [(x, i)] /\ p_consts p2 = p_consts p /\ p_xforms p2 = p_xforms p /\ p_funcs p2 = p_funcs p /\
    forall p'', grow p2 p'' -> agree (size p) (size p2) p2 p'' -> type_elab n p'' x args f.
  Proof.
    intros H0 H1 H2 Ca Cf. apply type_decl_spec in H0 as (M & -> & -> & G0 & P0). split; [exact M|]. set (p0 := with_types _ _) in *.
    assert (Sz0 : size p0 = S (size p)) by (unfold p0; cbn [with_types p_store]; apply st_add_size).
    apply type_params_spec in H1 as (ps & q1 & -> & X1 & Sc & K1); [|exact Ca]. apply type_body_spec in H2 as (t & c & us & k & q2 & -> & X2 & K2); [|exact Cf].
    pose proof (ext_size _ _ X1) as Z1. pose proof (ext_size _ _ X2) as Z2. rewrite st_set_size in Z2.
    assert (E0 : fget p0 (size p) = Some (placeholder x true)) by (exact (st_add_get p (placeholder x true))).
    assert (E1 : fget q1 (size p) = Some (placeholder x true)) by (eapply ext_fget; eassumption).
    assert (E2 : fget q2 (size p) = Some (set_params ps (placeholder x true))) by (eapply ext_fget; [exact X2|]; apply st_set_same; exact E1).
    assert (E3 : fget (st_set (st_set q2 (size p) (set_mid t c us)) (size p) (set_calc k)) (size p) = Some (finished x ps t c us k)).
    { apply st_set_same. apply st_set_same. exact E2. }
    assert (P1 : prefix p (st_set q1 (size p) (set_params ps))).
    { destruct P0 as [l0 P0]. destruct X1 as [_ [l1 X1]]. exists (upd (l0 ++ l1) (size p - size p) (set_params ps)). cbn [st_set p_store]. rewrite X1, P0, <- app_assoc. apply upd_app. lia. }
    assert (P2 : prefix p (st_set (st_set q2 (size p) (set_mid t c us)) (size p) (set_calc k))).
    { destruct P1 as [l1 P1]. destruct X2 as [_ [l2 X2]]. rewrite P1, <- app_assoc in X2. eexists. cbn [st_set p_store]. rewrite X2, upd_app by lia. rewrite upd_app by lia. reflexivity. }
    assert (G1 : grow q1 (st_set q1 (size p) (set_params ps))) by (apply st_set_grow; reflexivity).
    assert (G2 : grow q2 (st_set q2 (size p) (set_mid t c us))) by (apply st_set_grow; intros g Eg U; rewrite E2 in Eg; injection Eg as <-; destruct U).
    assert (G3 : grow q2 (st_set (st_set q2 (size p) (set_mid t c us)) (size p) (set_calc k))) by (eapply grow_trans; [exact G2|apply st_calc_grow]).
    assert (G4 : grow q1 (st_set (st_set q2 (size p) (set_mid t c us)) (size p) (set_calc k))).
    { eapply grow_trans; [exact G1|]. eapply grow_trans; [apply ext_grow; exact X2|exact G3]. }
    split; [eapply grow_trans; [exact G0|]; eapply grow_trans; [apply ext_grow; exact X1|exact G4]|]. split; [exact P2|].
    destruct X1 as [[T1 T2 T3 T4] X1s]. destruct X2 as [[U1 U2 U3 U4] X2s]. cbn [st_set p_types p_consts p_xforms p_funcs] in *.
    split; [rewrite U1, T1; reflexivity|]. split; [rewrite U2, T2; reflexivity|]. split; [rewrite U3, T3; reflexivity|]. split; [rewrite U4, T4; reflexivity|].
    intros p'' G A. pose proof A as A'. rewrite !st_set_size in A.
    destruct (A (size p) _ ltac:(lia) E3) as (fd & Ef & Sm).
    eapply finish_type with (ps := ps); [|exact Ef|exact Sm| |eapply K2|eapply K2].
    - apply (g_types _ _ G). cbn [st_set p_types]. rewrite U1, T1. cbn [p0 with_types p_types]. rewrite mget_app, M. cbn. rewrite name_eqb_refl. reflexivity.
    - apply K1; [eapply grow_trans; eassumption|]. intros j g B E. apply A; [lia|]. rewrite !st_set_other by lia.
      eapply prefix_fget; [exact X2s|]. rewrite st_set_other by lia. exact E.
    - exact Sc.
    - eapply grow_trans; eassumption.
    - exact G.
    - intros j g B E. rewrite st_set_size in B. apply A; [lia|]. rewrite !st_set_other by lia. exact E.
    - exact Sc.
    - eapply grow_trans; eassumption.
    - exact G.
    - intros j g B E. rewrite st_set_size in B. apply A; [lia|]. rewrite !st_set_other by lia. exact E.
  Qed.

  (** ** Constants, enums and flags *)
  Lemma const_decl_spec x t v p p' : const_decl en n x t v p = Ok p' -> clean_type t ->
    mget x (p_consts p) = None /\ grow p p' /\ prefix p p' /\ p_types p' = p_types p /\ p_xforms p' = p_xforms p /\ p_funcs p' = p_funcs p /\ map fst (p_consts p') = map fst (p_consts p) ++ [x] /\
    forall p'', grow p' p'' -> agree (size p) (size p') p' p'' -> const_elab n p'' x t v.
  Proof.
    unfold const_decl. destruct (mget x (p_consts p)) eqn:M; [discriminate|]. intros H C. destruct (ctype en n scope0 t ForConst p) as [[t' p1]| | |] eqn:Et; cbn [bind] in H; try discriminate H.
    destruct (ctype_elab en n t _ _ _ _ _ Et C) as [X K].
    assert (Q : bind (into_partial n p1 t') (fun xt => bind (cexpr en n p1 scope0 v xt) (fun v' => Ok (with_consts p1 (mput x {| c_name := x; c_type := t'; c_value := v' |} (p_consts p1))))) = Ok p' /\ ~ is_enum t').
    { destruct t'; try discriminate H; split; try exact H; intros U; exact U. }
    clear H. destruct Q as [Q NE]. destruct (into_partial n p1 t') as [xt| | |]; cbn [bind] in Q; try discriminate Q. destruct (cexpr en n p1 scope0 v xt) as [v'| | |] eqn:Ev; cbn [bind] in Q; try discriminate Q.
    apply Ok_inj in Q. subst p'. pose proof X as [[T1 T2 T3 T4] Xs]. assert (M1 : mget x (p_consts p1) = None) by (rewrite T2; exact M). rewrite mput_new by exact M1.
    assert (G1 : grow p1 (with_consts p1 (p_consts p1 ++ [(x, {| c_name := x; c_type := t'; c_value := v' |})]))).
    { constructor; cbn [with_consts p_types p_consts p_xforms p_funcs]; auto; [intros y c E; rewrite mget_app, E; reflexivity|]. intros i f E _. exists f. split; [exact E|reflexivity]. }
    split; [reflexivity|]. split; [eapply grow_trans; [apply ext_grow; exact X|exact G1]|]. split; [exact Xs|]. cbn [with_consts p_types p_consts p_xforms p_funcs].
    split; [exact T1|]. split; [exact T3|]. split; [exact T4|]. split; [rewrite map_app, T2; reflexivity|].
    intros p'' G A. exists {| c_name := x; c_type := t'; c_value := v' |}. split.
    - apply (g_consts _ _ G). cbn [with_consts p_consts]. rewrite mget_app, M1. cbn. rewrite name_eqb_refl. reflexivity.
    - cbn [c_name c_type c_value]. split; [reflexivity|]. split; [apply (K [] []); [intros y; split; reflexivity|eapply grow_trans; eassumption|exact A]|]. split; [exact NE|].
      eapply (cexpr_mirror en n p1 p'' scope0); [intros y; split; reflexivity|eapply grow_trans; eassumption|exact Ev].
  Qed.

  Fixpoint early_names (l : aprogram) : list name :=
    match l with [] => [] | DType x _ f :: l => if is_def f then x :: early_names l else early_names l | _ :: l => early_names l end.
  Fixpoint late_type_names (l : aprogram) : list name :=
    match l with [] => [] | DType x _ f :: l => if is_def f then late_type_names l else x :: late_type_names l | _ :: l => late_type_names l end.
  Fixpoint const_names (l : aprogram) : list name :=
    match l with [] => [] | DConst x _ _ :: l => x :: const_names l | _ :: l => const_names l end.
  Definition early_done (p : prog) (d : adecl) : Prop :=
    match d with DType x args f => is_def f = true -> type_elab n p x args f | DConst x t v => const_elab n p x t v | _ => True end.

  Lemma early_spec : forall l p p', early en n l p = Ok p' -> Forall clean_decl l ->
    grow p p' /\ prefix p p' /\ p_xforms p' = p_xforms p /\ p_funcs p' = p_funcs p /\
    NoDup (early_names l) /\ (forall x, In x (early_names l) -> mget x (p_types p) = None) /\ map fst (p_types p') = map fst (p_types p) ++ early_names l /\
    NoDup (const_names l) /\ (forall x, In x (const_names l) -> mget x (p_consts p) = None) /\ map fst (p_consts p') = map fst (p_consts p) ++ const_names l /\
    forall p'', grow p' p'' -> agree (size p) (size p') p' p'' -> Forall (early_done p'') l.
  Proof.
    induction l as [|d l IH]; intros p p' H C.
    - apply Ok_inj in H. subst. cbn. rewrite !app_nil_r. do 4 (split; [first [apply grow_refl|apply prefix_refl|reflexivity]|]). split; [constructor|]. split; [tauto|]. split; [reflexivity|]. split; [constructor|]. split; [tauto|]. split; [reflexivity|]. constructor.
    - inversion C as [|? ? Cd Cl]; subst.
      assert (Skip : early en n l p = Ok p' -> early_names (d :: l) = early_names l -> const_names (d :: l) = const_names l -> (forall p'', early_done p'' d) ->
        grow p p' /\ prefix p p' /\ p_xforms p' = p_xforms p /\ p_funcs p' = p_funcs p /\
        NoDup (early_names (d :: l)) /\ (forall x, In x (early_names (d :: l)) -> mget x (p_types p) = None) /\ map fst (p_types p') = map fst (p_types p) ++ early_names (d :: l) /\
        NoDup (const_names (d :: l)) /\ (forall x, In x (const_names (d :: l)) -> mget x (p_consts p) = None) /\ map fst (p_consts p') = map fst (p_consts p) ++ const_names (d :: l) /\
        forall p'', grow p' p'' -> agree (size p) (size p') p' p'' -> Forall (early_done p'') (d :: l)).
      { intros H1 -> -> Hd. destruct (IH _ _ H1 Cl) as (A1 & A2 & A3 & A4 & A5 & A6 & A7 & A8 & A9 & A10 & A11). repeat (split; [assumption|]). intros p'' G A. constructor; [apply Hd|apply A11; assumption]. }
      destruct d as [x args f|items from|x k|x t v].
      + cbn [early] in H. destruct (is_def f) eqn:D; [|apply Skip; cbn [early_names const_names]; try rewrite D; auto; intros p'' E; cbn in E; congruence]. clear Skip.
        destruct (type_decl x p) as [[i p0]| | |] eqn:E0; cbn [bind] in H; try discriminate H. destruct (type_params en n i args p0) as [[fr p1]| | |] eqn:E1; cbn [bind] in H; try discriminate H.
        destruct (type_body en n fr i x f p1) as [p2| | |] eqn:E2; cbn [bind] in H; try discriminate H. destruct Cd as [Ca Cf].
        destruct (one_type _ _ _ _ _ _ _ _ _ E0 E1 E2 Ca Cf) as (M & G1 & P1 & T1 & T2 & T3 & T4 & K). destruct (IH _ _ H Cl) as (A1 & A2 & A3 & A4 & A5 & A6 & A7 & A8 & A9 & A10 & A11).
        cbn [early_names const_names]. rewrite D. split; [eapply grow_trans; eassumption|]. split; [eapply prefix_trans; eassumption|]. split; [congruence|]. split; [congruence|].
        assert (Fr : forall y, In y (early_names l) -> y <> x /\ mget y (p_types p) = None).
        { intros y Hy. apply A6 in Hy. rewrite T1, mget_app in Hy. destruct (mget y (p_types p)); [discriminate|]. cbn in Hy. split; [intros ->; rewrite name_eqb_refl in Hy; discriminate|reflexivity]. }
        split; [constructor; [intros Hx; apply Fr in Hx as [Hx _]; congruence|exact A5]|]. split; [intros y [<-|Hy]; [exact M|apply Fr; exact Hy]|].
        split; [rewrite A7, T1, map_app, <- app_assoc; reflexivity|]. split; [exact A8|]. split; [rewrite T2 in A9; exact A9|]. split; [congruence|].
        intros p'' G A. pose proof (prefix_size _ _ P1). pose proof (prefix_size _ _ A2). constructor; [|apply A11; [exact G|eapply agree_sub; [exact A|lia|lia]]].
        intros _. apply K; [eapply grow_trans; eassumption|]. eapply agree_prefix; [exact A2|eapply agree_sub; [exact A|lia|lia]|lia].
      + apply Skip; first [reflexivity|exact H|intros; exact Logic.I].
      + apply Skip; first [reflexivity|exact H|intros; exact Logic.I].
      + clear Skip. cbn [early] in H. destruct (const_decl en n x t v p) as [p1| | |] eqn:E; cbn [bind] in H; try discriminate H. cbn [clean_decl] in Cd.
        apply const_decl_spec in E as (M & G1 & P1 & T1 & T3 & T4 & T2 & K); [|exact Cd]. destruct (IH _ _ H Cl) as (A1 & A2 & A3 & A4 & A5 & A6 & A7 & A8 & A9 & A10 & A11).
        cbn [early_names const_names]. split; [eapply grow_trans; eassumption|]. split; [eapply prefix_trans; eassumption|]. split; [congruence|]. split; [congruence|].
        split; [exact A5|]. split; [rewrite T1 in A6; exact A6|]. split; [congruence|].
        assert (Fr : forall y, In y (const_names l) -> y <> x /\ mget y (p_consts p) = None).
        { intros y Hy. apply A9 in Hy. apply mget_none in Hy. rewrite T2, in_app_iff in Hy. split; [intros ->; apply Hy; right; left; reflexivity|]. apply mget_none. tauto. }
        split; [constructor; [intros Hx; apply Fr in Hx as [Hx _]; congruence|exact A8]|]. split; [intros y [<-|Hy]; [exact M|apply Fr; exact Hy]|].
        split; [rewrite A10, T2, <- app_assoc; reflexivity|].
        intros p'' G A. pose proof (prefix_size _ _ P1). pose proof (prefix_size _ _ A2). constructor; [|apply A11; [exact G|eapply agree_sub; [exact A|lia|lia]]].
        apply K; [eapply grow_trans; eassumption|]. eapply agree_prefix; [exact A2|eapply agree_sub; [exact A|lia|lia]|lia].
  Qed.

  (** ** The other types *)
  Lemma late_names_spec : forall a p l p', late_names a p = Ok (l, p') ->
    grow p p' /\ prefix p p' /\ p_consts p' = p_consts p /\ p_xforms p' = p_xforms p /\ p_funcs p' = p_funcs p /\
    NoDup (late_type_names a) /\ (forall x, In x (late_type_names a) -> mget x (p_types p) = None) /\ map fst (p_types p') = map fst (p_types p) ++ late_type_names a /\
    NoDup (map (fun e => fst (fst (fst e))) l) /\
    (forall i x args f, In (i, x, args, f) l -> (size p <= i < size p')%nat /\ mget x (p_types p') = Some i /\ fget p' i = Some (placeholder x true) /\ In (DType x args f) a) /\
    (forall x args f, In (DType x args f) a -> is_def f = false -> exists i, In (i, x, args, f) l).
  Proof.
    induction a as [|d a IH]; intros p l p' H.
    - apply Ok_inj in H. injection H as <- <-. cbn. rewrite app_nil_r. split; [apply grow_refl|]. split; [apply prefix_refl|]. do 3 (split; [reflexivity|]). split; [constructor|]. split; [tauto|]. split; [reflexivity|]. split; [constructor|]. split; tauto.
    - assert (Skip : late_names a p = Ok (l, p') -> late_type_names (d :: a) = late_type_names a -> (forall x args f, d = DType x args f -> is_def f = true) ->
        grow p p' /\ prefix p p' /\ p_consts p' = p_consts p /\ p_xforms p' = p_xforms p /\ p_funcs p' = p_funcs p /\
        NoDup (late_type_names (d :: a)) /\ (forall x, In x (late_type_names (d :: a)) -> mget x (p_types p) = None) /\ map fst (p_types p') = map fst (p_types p) ++ late_type_names (d :: a) /\
        NoDup (map (fun e => fst (fst (fst e))) l) /\
        (forall i x args f, In (i, x, args, f) l -> (size p <= i < size p')%nat /\ mget x (p_types p') = Some i /\ fget p' i = Some (placeholder x true) /\ In (DType x args f) (d :: a)) /\
        (forall x args f, In (DType x args f) (d :: a) -> is_def f = false -> exists i, In (i, x, args, f) l)).
      { intros H1 -> Hd. destruct (IH _ _ _ H1) as (A1 & A2 & A3 & A4 & A5 & A6 & A7 & A8 & A9 & A10 & A11). repeat (split; [assumption|]). split.
        - intros i x args f Hi. apply A10 in Hi as (B1 & B2 & B3 & B4). repeat (split; [assumption|]). right. exact B4.
        - intros x args f [->|Hi] D; [erewrite Hd in D by reflexivity; discriminate|apply A11; assumption]. }
      destruct d as [x args f|items from|x k|x t v]; try (apply Skip; [exact H|reflexivity|discriminate]).
      cbn [late_names] in H. destruct (is_def f) eqn:D; [apply Skip; [exact H|cbn; rewrite D; reflexivity|intros ? ? ? [= -> -> ->]; exact D]|]. clear Skip.
      destruct (type_decl x p) as [[i p0]| | |] eqn:E0; cbn [bind] in H; try discriminate H. destruct (late_names a p0) as [[q p1]| | |] eqn:E1; cbn [bind] in H; try discriminate H. apply Ok_inj in H. injection H as <- <-.
      apply type_decl_spec in E0 as (M & -> & -> & G0 & P0). destruct (IH _ _ _ E1) as (A1 & A2 & A3 & A4 & A5 & A6 & A7 & A8 & A9 & A10 & A11). set (p0 := with_types _ _) in *.
      assert (Sz0 : size p0 = S (size p)) by (unfold p0; cbn [with_types p_store]; apply st_add_size). pose proof (prefix_size _ _ A2) as Sz1.
      cbn [late_type_names]. rewrite D. split; [eapply grow_trans; eassumption|]. split; [eapply prefix_trans; eassumption|]. split; [exact A3|]. split; [exact A4|]. split; [exact A5|].
      assert (Fr : forall y, In y (late_type_names a) -> y <> x /\ mget y (p_types p) = None).
      { intros y Hy. apply A7 in Hy. cbn [p0 with_types p_types] in Hy. rewrite mget_app in Hy. destruct (mget y (p_types p)); [discriminate|]. cbn in Hy. split; [intros ->; rewrite name_eqb_refl in Hy; discriminate|reflexivity]. }
      split; [constructor; [intros Hx; apply Fr in Hx as [Hx _]; congruence|exact A6]|]. split; [intros y [<-|Hy]; [exact M|apply Fr; exact Hy]|].
      split; [rewrite A8; cbn [p0 with_types p_types]; rewrite map_app, <- app_assoc; reflexivity|].
      split. { cbn [map fst]. constructor; [|exact A9]. intros Hin. apply in_map_iff in Hin as ([[[j y] ar] g] & Ej & Hin). cbn in Ej. apply A10 in Hin as (B1 & _). lia. }
      split.
      + intros j y ar g [Hj|Hj].
        * injection Hj as <- <- <- <-. split; [lia|]. split; [apply (g_types _ _ A1); cbn [p0 with_types p_types]; rewrite mget_app, M; cbn; rewrite name_eqb_refl; reflexivity|].
          split; [|left; reflexivity]. eapply prefix_fget; [exact A2|]. exact (st_add_get p (placeholder x true)).
        * apply A10 in Hj as (B1 & B2 & B3 & B4). split; [lia|]. split; [exact B2|]. split; [exact B3|right; exact B4].
      + intros y ar g [Hj|Hj] Dg; [injection Hj as -> -> ->; exists (size p); left; reflexivity|]. destruct (A11 _ _ _ Hj Dg) as [j Hj']. exists j. right. exact Hj'.
  Qed.

  Definition params_done (p p' : prog) (e : nat * name * list targ * afield) (b : frame * nat * name * afield) : Prop :=
    let '(i, x, args, f) := e in let '(fr, i', x', f') := b in
    i' = i /\ x' = x /\ f' = f /\ exists ps, fget p' i = Some (set_params ps (placeholder x true)) /\ scoped (fr :: scope0) [] (inputs ps) /\
      forall p'', grow p' p'' -> agree (size p) (size p') p' p'' -> params_elab n p'' [] args ps.
  Lemma late_params_spec : forall l p l' p', late_params en n l p = Ok (l', p') -> NoDup (map (fun e => fst (fst (fst e))) l) ->
    (forall i x args f, In (i, x, args, f) l -> (i < size p)%nat /\ fget p i = Some (placeholder x true) /\ clean_args args) ->
    tables p p' /\ (size p <= size p')%nat /\ grow p p' /\ (forall j, (j < size p)%nat -> ~ In j (map (fun e => fst (fst (fst e))) l) -> fget p' j = fget p j) /\
    Forall2 (params_done p p') l l'.
  Proof.
    induction l as [|[[[i x] args] f] l IH]; intros p l' p' H N Hl.
    - apply Ok_inj in H. injection H as <- <-. split; [apply tables_refl|]. split; [lia|]. split; [apply grow_refl|]. split; [reflexivity|constructor].
    - cbn [late_params] in H. destruct (type_params en n i args p) as [[fr p1]| | |] eqn:E1; cbn [bind] in H; try discriminate H. destruct (late_params en n l p1) as [[q p2]| | |] eqn:E2; cbn [bind] in H; try discriminate H.
      apply Ok_inj in H. injection H as <- <-. destruct (Hl i x args f (or_introl eq_refl)) as (Li & Ei & Ca). apply type_params_spec in E1 as (ps & q1 & -> & X1 & Sc & K1); [|exact Ca].
      inversion N as [|? ? Ni N']; subst. cbn [map fst] in Ni. pose proof (ext_size _ _ X1) as Z1.
      assert (Ei1 : fget q1 i = Some (placeholder x true)) by (eapply ext_fget; eassumption).
      destruct (IH _ _ _ E2 N') as (T & Z & G & O & B); clear IH.
      { intros j y ar g Hj. rewrite st_set_size. destruct (Hl j y ar g (or_intror Hj)) as (Lj & Ej & Cj). split; [lia|]. split; [|exact Cj]. rewrite st_set_other; [eapply ext_fget; eassumption|].
        intros ->. apply Ni. apply in_map_iff. exists (j, y, ar, g). auto. }
      rewrite st_set_size in Z. assert (G1 : grow q1 (st_set q1 i (set_params ps))) by (apply st_set_grow; reflexivity).
      split; [eapply tables_trans; [apply X1|eapply tables_trans; [apply st_set_tables|exact T]]|]. split; [lia|]. split; [eapply grow_trans; [apply ext_grow; exact X1|eapply grow_trans; eassumption]|].
      split. { intros j Lj Hj. cbn [map fst] in Hj. rewrite O; [|rewrite st_set_size; lia|intros Hq; apply Hj; right; exact Hq]. rewrite st_set_other by (intros ->; apply Hj; left; reflexivity). destruct X1 as [_ [l0 X1]]. unfold fget. rewrite X1. apply nth_error_app1. exact Lj. }
      constructor.
      + split; [reflexivity|]. split; [reflexivity|]. split; [reflexivity|]. exists ps. split; [rewrite O; [apply st_set_same; exact Ei1|rewrite st_set_size; lia|exact Ni]|]. split; [exact Sc|].
        intros p'' Gp A. apply K1; [eapply grow_trans; [exact G1|eapply grow_trans; eassumption]|]. intros j g Bj Ej. apply A; [lia|]. rewrite O; [rewrite st_set_other by lia; exact Ej|rewrite st_set_size; lia|].
        intros Hin. apply in_map_iff in Hin as ([[[j' y] ar] g'] & E & Hin). cbn in E. subst j'. apply (or_intror (A := (i, x, args, f) = (j, y, ar, g'))) in Hin. apply Hl in Hin as (Lj & _). lia.
      + clear - B Z1. induction B as [|[[[j y] ar] g] [[[fr' j'] y'] g'] l1 l2 D _ IHB]; constructor; [|exact IHB]. destruct D as (D1 & D2 & D3 & qs & D4 & D5 & D6). split; [exact D1|]. split; [exact D2|]. split; [exact D3|].
        exists qs. split; [exact D4|]. split; [exact D5|]. intros p'' Gp A. apply D6; [exact Gp|]. intros k h Bk Ek. rewrite st_set_size in Bk. apply A; [lia|exact Ek].
  Qed.

  Lemma late_bodies_spec : forall (l : list (frame * nat * name * afield)) p p', late_bodies en n l p = Ok p' -> NoDup (map (fun e => snd (fst (fst e))) l) ->
    (forall fr i x f, In (fr, i, x, f) l -> clean_field f /\ exists ps, fget p i = Some (set_params ps (placeholder x true))) ->
    tables p p' /\ (size p <= size p')%nat /\ grow p p' /\ (forall j, (j < size p)%nat -> ~ In j (map (fun e => snd (fst (fst e))) l) -> fget p' j = fget p j) /\
    forall fr i x f, In (fr, i, x, f) l -> forall ps, fget p i = Some (set_params ps (placeholder x true)) -> exists t c us k, fget p' i = Some (finished x ps t c us k) /\
      forall I p'', scoped (fr :: scope0) [] I -> grow p' p'' -> agree (size p) (size p') p' p'' -> body_rel n p'' [] I (Some x) f t c us /\ calc_rel p'' I f k.
  Proof.
    induction l as [|[[[fr i] x] f] l IH]; intros p p' H N Hl.
    - apply Ok_inj in H. subst. split; [apply tables_refl|]. split; [lia|]. split; [apply grow_refl|]. split; [reflexivity|]. intros ? ? ? ? [].
    - cbn [late_bodies] in H. destruct (type_body en n fr i x f p) as [p1| | |] eqn:E1; cbn [bind] in H; try discriminate H. destruct (Hl fr i x f (or_introl eq_refl)) as (Cf & ps & Ei).
      apply type_body_spec in E1 as (t & c & us & k & q1 & -> & X1 & K1); [|exact Cf]. inversion N as [|? ? Ni N']; subst. cbn [map fst snd] in Ni. pose proof (ext_size _ _ X1) as Z1. pose proof (fget_size _ _ _ Ei) as Li.
      assert (Ei1 : fget q1 i = Some (set_params ps (placeholder x true))) by (eapply ext_fget; eassumption).
      set (p1 := st_set (st_set q1 i (set_mid t c us)) i (set_calc k)) in *. assert (Sz1 : size p1 = size q1) by (unfold p1; rewrite !st_set_size; reflexivity).
      assert (Ei2 : fget p1 i = Some (finished x ps t c us k)) by (apply st_set_same, st_set_same; exact Ei1).
      assert (O1 : forall j, j <> i -> fget p1 j = fget q1 j) by (intros j Nj; unfold p1; rewrite !st_set_other by congruence; reflexivity).
      destruct (IH _ _ H N') as (T & Z & G & O & B); clear IH.
      { intros fr' j y g Hj. destruct (Hl fr' j y g (or_intror Hj)) as (Cj & qs & Ej). split; [exact Cj|]. exists qs. rewrite O1; [eapply ext_fget; eassumption|].
        intros ->. apply Ni. apply in_map_iff. exists (fr', i, y, g). auto. }
      assert (G1 : grow q1 p1). { eapply grow_trans; [|apply st_calc_grow]. apply st_set_grow. intros g Eg U. rewrite Ei1 in Eg. injection Eg as <-. destruct U. }
      assert (Ids : forall j, (size p <= j)%nat -> ~ In j (map (fun e : frame * nat * name * afield => snd (fst (fst e))) l)).
      { intros j Lj Hin. apply in_map_iff in Hin as ([[[fr' j'] y] g] & E & Hin). cbn in E. subst j'. destruct (Hl fr' j y g (or_intror Hin)) as (_ & qs & Ej). apply fget_size in Ej. lia. }
      split; [eapply tables_trans; [apply X1|]; eapply tables_trans; [|exact T]; eapply tables_trans; apply st_set_tables|]. split; [lia|]. split; [eapply grow_trans; [apply ext_grow; exact X1|eapply grow_trans; eassumption]|].
      split. { intros j Lj Hj. cbn [map fst snd] in Hj. rewrite O; [|lia|intros Hq; apply Hj; right; exact Hq]. rewrite O1 by (intros ->; apply Hj; left; reflexivity). destruct X1 as [_ [l0 X1]]. unfold fget. rewrite X1. apply nth_error_app1. exact Lj. }
      intros fr' j y g [Hj|Hj] qs Ej.
      + injection Hj as <- <- <- <-. rewrite Ei in Ej. assert (Eq : qs = ps) by (apply (f_equal (option_map f_params)) in Ej; cbn in Ej; congruence). subst qs.
        exists t, c, us, k. split; [rewrite O by (try lia; exact Ni); exact Ei2|]. intros I p'' Hs Gp A. apply K1; [exact Hs|eapply grow_trans; [exact G1|eapply grow_trans; eassumption]|eapply grow_trans; eassumption|].
        intros h fh Bh Eh. apply A; [lia|]. rewrite O; [rewrite O1 by lia; exact Eh|lia|apply Ids; lia].
      + assert (Nj : j <> i) by (intros ->; apply Ni; apply in_map_iff; exists (fr', i, y, g); auto).
        destruct (B fr' j y g Hj qs) as (t2 & c2 & us2 & k2 & E2 & K2); [rewrite O1 by exact Nj; eapply ext_fget; eassumption|]. exists t2, c2, us2, k2. split; [exact E2|].
        intros I p'' Hs Gp A. apply K2; [exact Hs|exact Gp|]. eapply agree_sub; [exact A|lia|lia].
  Qed.

  (** ** The recursion scan *)
  Lemma scan_spec : forall l p p', scan n l p = Ok p' -> tables p p' /\ size p' = size p /\ forall i f, fget p i = Some f -> exists f', fget p' i = Some f' /\ same f f'.
  Proof.
    induction l as [|[x i] l IH]; intros p p' H.
    - apply Ok_inj in H. subst. split; [apply tables_refl|]. split; [reflexivity|]. intros i f E. exists f. split; [exact E|apply same_refl].
    - cbn [scan] in H. destruct (fget p i) as [f|] eqn:Ef; [|discriminate H]. destruct (gather n p (f_type f) []) as [names| | |]; cbn [bind] in H; try discriminate H.
      destruct (mem (f_name f) names); [|apply IH; exact H]. apply IH in H as (T & Z & K). rewrite st_set_size in Z. split; [eapply tables_trans; [apply st_set_tables|exact T]|]. split; [exact Z|].
      intros j g E. destruct (Nat.eq_dec i j) as [<-|Nj].
      + destruct (K i (set_cyclic g)) as (f' & E' & S'); [apply st_set_same; exact E|]. exists f'. split; [exact E'|]. eapply same_trans; [|exact S']. repeat split.
      + apply K. rewrite st_set_other by exact Nj. exact E.
  Qed.

  (** ** Foreign declarations and imports *)
  Variable rs : resolver.
  Definition bound (b : name * option name) : name := match snd b with Some y => y | None => fst b end.
  Fixpoint import_names (a : aprogram) : list name :=
    match a with [] => [] | DImport items _ :: a => map bound items ++ import_names a | _ :: a => import_names a end.
  Definition ffi_elab (p : prog) (x : name) (k : ffi) : Prop :=
    match k with
    | FType => exists ps i fd, r_type rs x = Ok (Some ps) /\ mget x (p_types p) = Some i /\ fget p i = Some fd /\ f_name fd = x /\ f_type fd = FForeign x /\ f_params fd = ps /\ f_top fd = true
    | FTransform => exists ps, r_xform rs x = Ok (Some ps) /\ mget x (p_xforms p) = Some ps
    | FFunction => exists f, r_func rs x = Ok (Some f) /\ mget x (p_funcs p) = Some f
    end.
  Definition import_elab (q p : prog) (b : name * option name) : Prop :=
    (exists i, mget (fst b) (p_types q) = Some i /\ mget (bound b) (p_types p) = Some i) \/
    (exists c, mget (fst b) (p_types q) = None /\ mget (fst b) (p_consts q) = Some c /\ mget (bound b) (p_consts p) = Some c) \/
    (exists f, mget (fst b) (p_types q) = None /\ mget (fst b) (p_consts q) = None /\ mget (fst b) (p_xforms q) = Some f /\ mget (bound b) (p_xforms p) = Some f).
  (** Names other than those in [l] keep their meaning. *)
  Definition keeps (l : list name) (p p' : prog) : Prop :=
    forall x, ~ In x l -> mget x (p_types p') = mget x (p_types p) /\ mget x (p_consts p') = mget x (p_consts p) /\ mget x (p_xforms p') = mget x (p_xforms p).
  Lemma keeps_refl l p : keeps l p p. Proof. intros x _. auto. Qed.
  Lemma keeps_trans l l' p q r : keeps l p q -> keeps l' q r -> keeps (l ++ l') p r.
  Proof. intros A B x N. rewrite in_app_iff in N. destruct (A x ltac:(tauto)) as (A1 & A2 & A3). destruct (B x ltac:(tauto)) as (B1 & B2 & B3). repeat split; congruence. Qed.
  Lemma import_items_spec q : forall l p p', import_items q l p = Ok p' -> p_store p' = p_store p /\ p_funcs p' = p_funcs p /\ keeps (map bound l) p p' /\ (NoDup (map bound l) -> Forall (import_elab q p') l).
  Proof.
    induction l as [|[x alias] l IH]; intros p p' H.
    - apply Ok_inj in H. subst. split; [reflexivity|]. split; [reflexivity|]. split; [apply keeps_refl|constructor].
    - cbn [import_items] in H. set (y := match alias with Some y => y | None => x end) in *. change (map bound ((x, alias) :: l)) with (y :: map bound l).
      destruct (mget x (p_types q)) as [i|] eqn:E1; [|destruct (mget x (p_consts q)) as [c|] eqn:E2; [|destruct (mget x (p_xforms q)) as [f|] eqn:E3; [|discriminate H]]];
        apply IH in H as (A1 & A2 & A3 & A4); (split; [exact A1|]); (split; [exact A2|]); (split; [|intros N; inversion N; subst; constructor; [|apply A4; assumption]]).
      + intros z Nz. destruct (A3 z ltac:(intros Q; apply Nz; right; exact Q)) as (B1 & B2 & B3). cbn [with_types p_types p_consts p_xforms] in *. rewrite B1, mget_put_other by (intros ->; apply Nz; left; reflexivity). auto.
      + left. exists i. split; [exact E1|]. change (bound (x, alias)) with y. destruct (A3 y) as (B1 & _ & _); [assumption|]. rewrite B1. cbn [with_types p_types]. apply mget_put_same.
      + intros z Nz. destruct (A3 z ltac:(intros Q; apply Nz; right; exact Q)) as (B1 & B2 & B3). cbn [with_consts p_types p_consts p_xforms] in *. rewrite B2, mget_put_other by (intros ->; apply Nz; left; reflexivity). auto.
      + right. left. exists c. split; [exact E1|]. split; [exact E2|]. change (bound (x, alias)) with y. destruct (A3 y) as (_ & B1 & _); [assumption|]. rewrite B1. cbn [with_consts p_consts]. apply mget_put_same.
      + intros z Nz. destruct (A3 z ltac:(intros Q; apply Nz; right; exact Q)) as (B1 & B2 & B3). cbn [with_xforms p_types p_consts p_xforms] in *. rewrite B3, mget_put_other by (intros ->; apply Nz; left; reflexivity). auto.
      + right. right. exists f. split; [exact E1|]. split; [exact E2|]. split; [exact E3|]. change (bound (x, alias)) with y. destruct (A3 y) as (_ & _ & B1); [assumption|]. rewrite B1. cbn [with_xforms p_xforms]. apply mget_put_same.
  Qed.
  Definition import_done (c : cache) (p : prog) (d : adecl) : Prop :=
    match d with DImport items from => exists x q, r_norm rs from = Ok x /\ mget x c = Some q /\ Forall (import_elab q p) items | _ => True end.
  Lemma import_decls_spec c : forall a p p', import_decls rs c a p = Ok p' -> p_store p' = p_store p /\ p_funcs p' = p_funcs p /\ keeps (import_names a) p p' /\
    (NoDup (import_names a) -> Forall (import_done c p') a).
  Proof.
    induction a as [|d a IH]; intros p p' H.
    - apply Ok_inj in H. subst. split; [reflexivity|]. split; [reflexivity|]. split; [apply keeps_refl|constructor].
    - destruct d as [x args f|items from|x k|x t v]; cbn [import_decls] in H;
        try (apply IH in H as (A1 & A2 & A3 & A4); split; [exact A1|]; split; [exact A2|]; split; [exact A3|]; intros N; constructor; [exact Logic.I|apply A4; exact N]).
      destruct (r_norm rs from) as [x| | |] eqn:En; cbn [bind] in H; try discriminate H. destruct (mget x c) as [q|] eqn:Eq; [|discriminate H]. destruct (import_items q items p) as [p1| | |] eqn:Ei; cbn [bind] in H; try discriminate H.
      apply import_items_spec in Ei as (B1 & B2 & B3 & B4). apply IH in H as (A1 & A2 & A3 & A4). split; [congruence|]. split; [congruence|]. cbn [import_names]. split; [eapply keeps_trans; eassumption|].
      intros N. assert (N1 : NoDup (map bound items)) by (clear - N; induction (map bound items) as [|y l IHl]; [constructor|]; inversion N; subst; constructor; [intros Q; apply H1; apply in_or_app; left; exact Q|auto]).
      assert (N2 : NoDup (import_names a)) by (clear - N; induction (map bound items) as [|y l IHl]; [exact N|]; inversion N; auto).
      assert (Dj : forall y, In y (map bound items) -> ~ In y (import_names a)).
      { clear - N. induction (map bound items) as [|z l IHl]; [intros y []|]. inversion N; subst. intros y [<-|Hy] Q; [apply H1; apply in_or_app; right; exact Q|eapply IHl; eassumption]. }
      constructor; [|apply A4; exact N2]. exists x, q. split; [exact En|]. split; [exact Eq|]. specialize (B4 N1). rewrite Forall_forall in B4 |- *. intros b Hb. pose proof (B4 b Hb) as K.
      destruct (A3 (bound b)) as (C1 & C2 & C3); [apply Dj; apply in_map; exact Hb|]. unfold import_elab in *. rewrite C1, C2, C3. exact K.
  Qed.
  Fixpoint ffi_names (k : ffi) (a : aprogram) : list name :=
    match a with
    | [] => []
    | DFfi x k' :: a => match k, k' with FType, FType | FTransform, FTransform | FFunction, FFunction => x :: ffi_names k a | _, _ => ffi_names k a end
    | _ :: a => ffi_names k a
    end.
  Lemma ffi_decl_spec x k p p' : ffi_decl rs x k p = Ok p' -> grow p p' /\ prefix p p' /\ p_consts p' = p_consts p /\ ffi_elab p' x k /\
    match k with
    | FType => mget x (p_types p) = None /\ map fst (p_types p') = map fst (p_types p) ++ [x]
    | _ => p_types p' = p_types p
    end /\
    match k with FTransform => mget x (p_xforms p) = None | _ => p_xforms p' = p_xforms p end /\
    match k with FFunction => mget x (p_funcs p) = None | _ => p_funcs p' = p_funcs p end.
  Proof.
    unfold ffi_decl. destruct k.
    - destruct (r_xform rs x) as [[ps|]| | |] eqn:E; cbn [bind]; try discriminate. destruct (mget x (p_xforms p)) eqn:M; [discriminate|]. intros H. apply Ok_inj in H. subst p'. rewrite mput_new by exact M.
      split; [|split; [exists []; cbn; rewrite app_nil_r; reflexivity|]]. { constructor; cbn [with_xforms p_types p_consts p_xforms p_funcs]; auto; [intros y v Ey; rewrite mget_app, Ey; reflexivity|]. intros i f Ef _. exists f. auto. }
      split; [reflexivity|]. split; [exists ps; split; [exact E|cbn; rewrite mget_app, M; cbn; rewrite name_eqb_refl; reflexivity]|]. repeat split.
    - destruct (r_type rs x) as [[ps|]| | |] eqn:E; cbn [bind]; try discriminate. destruct (mget x (p_types p)) eqn:M; [discriminate|]. intros H. apply Ok_inj in H. subst p'. cbn [st_add p_types]. rewrite mput_new by exact M.
      set (f := {| f_name := x |}) in *. pose proof (st_add_ext p f) as X.
      split; [|split; [exists [f]; reflexivity|]].
      { constructor; cbn [with_types p_types p_consts p_xforms p_funcs st_add]; auto; [intros y v Ey; rewrite mget_app, Ey; reflexivity|]. intros i g Eg _. exists g. split; [exact (ext_fget _ _ _ _ X Eg)|reflexivity]. }
      split; [reflexivity|]. split.
      { exists ps, (size p), f. split; [exact E|]. cbn [with_types p_types]. rewrite mget_app, M. cbn [mget]. rewrite name_eqb_refl. split; [reflexivity|]. split; [exact (st_add_get p f)|]. repeat split. }
      split; [split; [reflexivity|]|repeat split]. cbn [with_types p_types]. rewrite map_app. reflexivity.
    - destruct (r_func rs x) as [[g|]| | |] eqn:E; cbn [bind]; try discriminate. destruct (mget x (p_funcs p)) eqn:M; [discriminate|]. intros H. apply Ok_inj in H. subst p'. rewrite mput_new by exact M.
      split; [|split; [exists []; cbn; rewrite app_nil_r; reflexivity|]]. { constructor; cbn [with_funcs p_types p_consts p_xforms p_funcs]; auto; [intros y v Ey; rewrite mget_app, Ey; reflexivity|]. intros i f Ef _. exists f. auto. }
      split; [reflexivity|]. split; [exists g; split; [exact E|cbn; rewrite mget_app, M; cbn; rewrite name_eqb_refl; reflexivity]|]. repeat split.
  Qed.
  Definition ffi_done (p : prog) (d : adecl) : Prop := match d with DFfi x k => ffi_elab p x k | _ => True end.
  Lemma ffi_elab_grow p p' x k : grow p p' -> prefix p p' -> ffi_elab p x k -> ffi_elab p' x k.
  Proof.
    intros G P H. destruct k; cbn [ffi_elab] in *.
    - destruct H as (ps & A & B). exists ps. split; [exact A|apply G; exact B].
    - destruct H as (ps & i & fd & A & B & C & D). exists ps, i, fd. split; [exact A|]. split; [apply G; exact B|]. split; [eapply prefix_fget; eassumption|exact D].
    - destruct H as (ps & A & B). exists ps. split; [exact A|apply G; exact B].
  Qed.
  Lemma ffi_decls_spec : forall a p p', ffi_decls rs a p = Ok p' -> grow p p' /\ prefix p p' /\ p_consts p' = p_consts p /\ Forall (ffi_done p') a /\
    NoDup (ffi_names FType a) /\ (forall x, In x (ffi_names FType a) -> mget x (p_types p) = None) /\ map fst (p_types p') = map fst (p_types p) ++ ffi_names FType a.
  Proof.
    induction a as [|d a IH]; intros p p' H.
    - apply Ok_inj in H. subst. cbn. rewrite app_nil_r. split; [apply grow_refl|]. split; [apply prefix_refl|]. split; [reflexivity|]. split; [constructor|]. split; [constructor|]. split; [tauto|reflexivity].
    - destruct d as [x args f|items from|x k|x t v]; cbn [ffi_decls] in H;
        try (apply IH in H as (A1 & A2 & A3 & A4 & A5 & A6 & A7); cbn [ffi_names]; split; [exact A1|]; split; [exact A2|]; split; [exact A3|]; split; [constructor; [exact Logic.I|exact A4]|auto]).
      destruct (ffi_decl rs x k p) as [p1| | |] eqn:E; cbn [bind] in H; try discriminate H. apply ffi_decl_spec in E as (G1 & P1 & C1 & E1 & T1 & _). apply IH in H as (A1 & A2 & A3 & A4 & A5 & A6 & A7).
      split; [eapply grow_trans; eassumption|]. split; [eapply prefix_trans; eassumption|]. split; [congruence|]. split; [constructor; [exact (ffi_elab_grow _ _ _ _ A1 A2 E1)|exact A4]|].
      destruct k; cbn [ffi_names]; [rewrite T1 in A6, A7; auto| |rewrite T1 in A6, A7; auto]. destruct T1 as [M T1].
      assert (Fr : forall y, In y (ffi_names FType a) -> y <> x /\ mget y (p_types p) = None).
      { intros y Hy. apply A6 in Hy. apply mget_none in Hy. rewrite T1, in_app_iff in Hy. split; [intros ->; apply Hy; right; left; reflexivity|]. apply mget_none. tauto. }
      split; [constructor; [intros Hx; apply Fr in Hx as [Hx _]; congruence|exact A5]|]. split; [intros y [<-|Hy]; [exact M|apply Fr; exact Hy]|]. rewrite A7, T1, <- app_assoc. reflexivity.
  Qed.

  (** ** Everything *)
  Fixpoint type_names (l : aprogram) : list name := match l with [] => [] | DType x _ _ :: l => x :: type_names l | _ :: l => type_names l end.
  Lemma names_split l : (forall x, In x (type_names l) <-> In x (early_names l) \/ In x (late_type_names l)) /\
    (NoDup (early_names l) -> NoDup (late_type_names l) -> (forall x, In x (early_names l) -> ~ In x (late_type_names l)) -> NoDup (type_names l)).
  Proof.
    induction l as [|[x args f|?|?|?] l [I1 I2]]; cbn; [split; [tauto|constructor]|..]; auto. destruct (is_def f); split.
    - intros y. cbn. rewrite I1. tauto.
    - intros N1 N2 D. inversion N1; subst. constructor; [|apply I2; auto; intros y Hy; apply D; right; exact Hy]. rewrite I1. intros [Q|Q]; [contradiction|]. eapply D; [left; reflexivity|exact Q].
    - intros y. cbn. rewrite I1. tauto.
    - intros N1 N2 D. inversion N2; subst. constructor; [|apply I2; auto; intros y Hy Q; eapply D; [exact Hy|right; exact Q]]. rewrite I1. intros [Q|Q]; [|contradiction]. eapply D; [exact Q|left; reflexivity].
  Qed.
  Lemma add_prelude_spec : forall l p, p_store (add_prelude l p) = p_store p /\ p_types (add_prelude l p) = p_types p /\ p_consts (add_prelude l p) = p_consts p /\ p_xforms (add_prelude l p) = p_xforms p.
  Proof. induction l as [|[x f] l IH]; intros p; [repeat split|]. cbn [add_prelude]. destruct (IH (with_funcs p (mput x f (p_funcs p)))) as (A & B & C & D). rewrite A, B, C, D. repeat split. Qed.

  Definition declared (p : prog) (d : adecl) : Prop :=
    match d with DType x args f => type_elab n p x args f | DConst x t v => const_elab n p x t v | _ => True end.
  Theorem program_elab a c st p : from_ast_imported en n rs a c st = Ok p -> Forall clean_decl a ->
    NoDup (type_names a) /\ NoDup (const_names a) /\ Forall (declared p) a /\
    (forall x k, In (DFfi x k) a -> ~ In x (import_names a) -> ffi_elab p x k) /\
    (NoDup (import_names a) -> Forall (import_done c p) a) /\
    (forall i f, nth_error st i = Some f -> exists f', fget p i = Some f' /\ same f f').
  Proof.
    unfold from_ast_imported. intros H C. set (q0 := {| p_store := st |}) in *. set (q1 := add_prelude (r_prelude rs) q0) in *.
    destruct (ffi_decls rs a q1) as [q2| | |] eqn:E2; cbn [bind] in H; try discriminate H. destruct (import_decls rs c a q2) as [q3| | |] eqn:E3; cbn [bind] in H; try discriminate H.
    destruct (early en n a q3) as [q4| | |] eqn:E4; cbn [bind] in H; try discriminate H. destruct (late_names a q4) as [[l q5]| | |] eqn:E5; cbn [bind] in H; try discriminate H.
    destruct (late_params en n l q5) as [[l' q6]| | |] eqn:E6; cbn [bind] in H; try discriminate H. destruct (late_bodies en n l' q6) as [q7| | |] eqn:E7; cbn [bind] in H; try discriminate H.
    apply ffi_decls_spec in E2 as (F1 & F2 & F3 & F4 & F5 & F6 & F7). apply import_decls_spec in E3 as (M1 & M2 & M3 & M4).
    apply early_spec in E4 as (A1 & A2 & A3 & A4 & A5 & A6 & A7 & A8 & A9 & A10 & A11); [|exact C].
    apply late_names_spec in E5 as (B1 & B2 & B3 & B4 & B5 & B6 & B7 & B8 & B9 & B10 & B11).
    assert (Cd : forall x args f, In (DType x args f) a -> clean_args args /\ clean_field f) by (intros x args f Hi; rewrite Forall_forall in C; apply (C _ Hi)).
    destruct (late_params_spec _ _ _ _ E6 B9) as (P1 & P2 & P3 & P4 & P5).
    { intros i x args f Hi. apply B10 in Hi as (Li & _ & Ei & Hd). split; [lia|]. split; [exact Ei|]. apply Cd in Hd. tauto. }
    assert (Ids : map (fun e : frame * nat * name * afield => snd (fst (fst e))) l' = map (fun e : nat * name * list targ * afield => fst (fst (fst e))) l).
    { clear - P5. induction P5 as [|[[[i x] args] f] [[[fr i'] x'] f'] l l' D _ IH]; [reflexivity|]. destruct D as (-> & _). cbn. rewrite IH. reflexivity. }
    destruct (late_bodies_spec _ _ _ E7) as (L1 & L2 & L3 & L4 & L5).
    { rewrite Ids. exact B9. }
    { intros fr i x f Hi. assert (Q : exists args, In (i, x, args, f) l /\ params_done q5 q6 (i, x, args, f) (fr, i, x, f)).
      { clear - P5 Hi. induction P5 as [|[[[i0 x0] args] f0] [[[fr' i'] x'] f'] l l' D P IH]; [destruct Hi|]. destruct Hi as [Hi|Hi].
        - injection Hi as -> -> -> ->. exists args. split; [left; destruct D as (-> & -> & -> & _); reflexivity|]. destruct D as (-> & -> & -> & D). repeat split; exact D.
        - destruct (IH Hi) as (ar & I1 & I2). exists ar. split; [right; exact I1|exact I2]. }
      destruct Q as (args & I1 & _ & _ & _ & ps & Ei & _). split; [apply B10 in I1 as (_ & _ & _ & Hd); apply Cd in Hd; tauto|exists ps; exact Ei]. }
    apply scan_spec in H as (S1 & S2 & S3).
    assert (Gs : grow q7 p). { destruct S1 as [T1 T2 T3 T4]. constructor; try congruence. intros i f Ef _. apply S3 in Ef as (f' & Ef' & Sf). exists f'. split; [exact Ef'|apply Sf]. }
    assert (G57 : grow q5 p) by (eapply grow_trans; [exact P3|eapply grow_trans; eassumption]).
    assert (Old : forall i f, (i < size q4)%nat -> fget q4 i = Some f -> exists f', fget p i = Some f' /\ same f f').
    { intros i f Li Ef. apply S3. pose proof (prefix_size _ _ B2). assert (NI : ~ In i (map (fun e : nat * name * list targ * afield => fst (fst (fst e))) l)).
      { intros Hin. apply in_map_iff in Hin as ([[[i' x] args] g] & E & Hin). cbn in E. subst i'. apply B10 in Hin as (Li' & _). lia. }
      rewrite L4 by (rewrite ?Ids; first [lia|exact NI]). rewrite P4 by (first [lia|exact NI]). eapply prefix_fget; eassumption. }
    split; [|split; [exact A8|split; [|split; [|split]]]].
    - apply names_split; [exact A5|exact B6|]. intros x Hx Hy. apply B7 in Hy. apply mget_none in Hy. apply Hy. rewrite A7. apply in_or_app. right. exact Hx.
    - assert (Early : Forall (early_done p) a).
      { apply A11; [eapply grow_trans; [exact B1|exact G57]|]. intros i f Bi Ef. apply Old; [lia|exact Ef]. }
      rewrite Forall_forall in Early |- *. intros d Hd. pose proof (Early d Hd) as Ed. destruct d as [x args f|?|?|x t v]; try exact Logic.I; [|exact Ed]. cbn [declared early_done] in *.
      destruct (is_def f) eqn:Df; [auto|]. clear Ed. destruct (B11 _ _ _ Hd Df) as [i Hi].
      assert (Q : exists fr, In (fr, i, x, f) l' /\ params_done q5 q6 (i, x, args, f) (fr, i, x, f)).
      { clear - P5 Hi. induction P5 as [|[[[i0 x0] ar] f0] [[[fr' i'] x'] f'] l l' D P IH]; [destruct Hi|]. destruct Hi as [Hi|Hi].
        - injection Hi as -> -> -> ->. destruct D as (-> & -> & -> & D). exists fr'. split; [left; reflexivity|]. repeat split; exact D.
        - destruct (IH Hi) as (fr & I1 & I2). exists fr. split; [right; exact I1|exact I2]. }
      destruct Q as (fr & I1 & _ & _ & _ & ps & Ei & Sc & Kp). destruct (L5 _ _ _ _ I1 _ Ei) as (t & c0 & us & k & Ef & Kb). destruct (S3 _ _ Ef) as (fd & Efd & Sfd). apply B10 in Hi as (Li & Ti & _ & _).
      destruct (Kb (inputs ps) p Sc Gs) as [Kb1 Kb2]. { intros j g Bj Ej. apply S3. exact Ej. }
      eapply finish_type; [apply (g_types _ _ G57); exact Ti|exact Efd|exact Sfd| |exact Kb1|exact Kb2].
      apply Kp; [eapply grow_trans; eassumption|]. intros j g Bj Ej. apply S3. rewrite L4; [exact Ej|lia|]. rewrite Ids.
      intros Hin. apply in_map_iff in Hin as ([[[j' y] ar] g'] & E & Hin). cbn in E. subst j'. apply B10 in Hin as (Lj & _). lia.
    - intros x k Hi Ni. rewrite Forall_forall in F4. pose proof (F4 _ Hi) as K. cbn [ffi_done] in K.
      assert (G37 : grow q3 p) by (eapply grow_trans; [exact A1|eapply grow_trans; eassumption]). destruct (M3 x Ni) as (N1 & N2 & N3).
      destruct k; cbn [ffi_elab] in *.
      + destruct K as (ps & K1 & K2). exists ps. split; [exact K1|]. apply G37. rewrite N3. exact K2.
      + destruct K as (ps & i & fd & K1 & K2 & K3 & K4 & K5 & K6 & K7). assert (Q : fget q4 i = Some fd) by (eapply prefix_fget; [exact A2|]; unfold fget in *; rewrite M1; exact K3).
        destruct (Old i fd (fget_size _ _ _ Q) Q) as (fd' & E' & (Z1 & Z2 & Z3 & Z4 & Z5 & Z6 & Z7) & Z8). exists ps, i, fd'. split; [exact K1|]. split; [apply G37; rewrite N1; exact K2|]. split; [exact E'|]. repeat split; congruence.
      + destruct K as (ps & K1 & K2). exists ps. split; [exact K1|]. apply G37. rewrite M2. exact K2.
    - intros N. specialize (M4 N). rewrite Forall_forall in M4 |- *. intros d Hd. pose proof (M4 d Hd) as K. destruct d as [?|items from|?|?]; try exact Logic.I. cbn [import_done] in *.
      assert (G37 : grow q3 p) by (eapply grow_trans; [exact A1|eapply grow_trans; eassumption]).
      destruct K as (x & q & K1 & K2 & K3). exists x, q. split; [exact K1|]. split; [exact K2|]. eapply Forall_impl; [|exact K3]. intros b [(i & Q1 & Q2)|[(v & Q1 & Q2 & Q3)|(v & Q1 & Q2 & Q3 & Q4)]].
      + left. exists i. split; [exact Q1|apply G37; exact Q2].
      + right. left. exists v. repeat (split; [assumption|]). apply G37. exact Q3.
      + right. right. exists v. repeat (split; [assumption|]). apply G37. exact Q4.
    - intros i f Ei. assert (Q : fget q4 i = Some f).
      { eapply prefix_fget; [exact A2|]. unfold fget. rewrite M1. eapply (prefix_fget q1 q2); [exact F2|]. unfold fget. destruct (add_prelude_spec (r_prelude rs) q0) as (Z & _). fold q1 in Z. rewrite Z. exact Ei. }
      apply Old; [eapply fget_size; exact Q|exact Q].
  Qed.
End Conv.
