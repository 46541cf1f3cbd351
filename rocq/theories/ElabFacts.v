(** The analysis produces the program that was written (C28, C43): proofs. *)
From Verif Require Import Base Scalar ConstInt ConstIntFacts Tokens Ast Parse Front Program FrontFacts ElabSpec.
From Coq Require Import Lia.
Open Scope list_scope.

(** ** Induction over the syntax tree *)
Section Ind.
  Variables (P : aexpr -> Prop) (Q : atype -> Prop) (G : afield -> Prop).
  Definition opt_all {A} (P : A -> Prop) (o : option A) : Prop := match o with Some a => P a | None => True end.
  Definition enum_all (v : aenum) : Prop := match v with VExpr e => P e | _ => True end.
  Definition item_all (i : aitem) : Prop := match i with IPad e => P e | IField _ f => G f end.
  Definition xform_all (x : axform) : Prop := match x with AXform _ args cond => Forall P args /\ opt_all P cond end.
  Hypothesis HInt : forall v ty, P (AInt v ty).
  Hypothesis HStr : forall s, P (AStr s).
  Hypothesis HBool : forall b, P (ABool b).
  Hypothesis HRef : forall x, P (ARef x).
  Hypothesis HAccess : forall x v, P (AEnumAccess x v).
  Hypothesis HCall : forall f args, Forall P args -> P (ACall f args).
  Hypothesis HIndex : forall a i, P a -> P i -> P (AIndex a i).
  Hypothesis HMember : forall e m, P e -> P (AMember e m).
  Hypothesis HUn : forall o e, P e -> P (AUn o e).
  Hypothesis HCast : forall e t, P e -> Q t -> P (ACast e t).
  Hypothesis HBin : forall o a b, P a -> P b -> P (ABin o a b).
  Hypothesis HTern : forall c a b, P c -> P a -> P b -> P (ATern c a b).
  Hypothesis HScalar : forall s, Q (YScalar s).
  Hypothesis HF32 : Q YF32.
  Hypothesis HF64 : Q YF64.
  Hypothesis HTBool : Q YBool.
  Hypothesis HTRef : forall x args, Forall P args -> Q (YRef x args).
  Hypothesis HEnum : forall rep items, Forall (fun i => enum_all (snd i)) items -> Q (YEnum rep items).
  Hypothesis HBits : forall rep items, Forall (fun i : name * option aexpr => opt_all P (snd i)) items -> Q (YBits rep items).
  Hypothesis HCont : forall len flags items, opt_all P len -> Forall item_all items -> Q (YCont len flags items).
  Hypothesis HArr : forall t ex len, Q t -> opt_all P len -> Q (YArr t ex len).
  Hypothesis HField : forall t calc flags cond xs, Q t -> opt_all P calc -> opt_all P cond -> Forall xform_all xs -> G (AField t calc flags cond xs).

  Fixpoint aexpr_ind' (e : aexpr) : P e :=
    let args := fix go (l : list aexpr) : Forall P l := match l with [] => Forall_nil _ | e :: l => Forall_cons _ (aexpr_ind' e) (go l) end in
    match e with
    | AInt v ty => HInt v ty | AStr s => HStr s | ABool b => HBool b | ARef x => HRef x | AEnumAccess x v => HAccess x v
    | ACall f l => HCall f l (args l)
    | AIndex a i => HIndex a i (aexpr_ind' a) (aexpr_ind' i)
    | AMember e m => HMember e m (aexpr_ind' e)
    | AUn o e => HUn o e (aexpr_ind' e)
    | ACast e t => HCast e t (aexpr_ind' e) (atype_ind' t)
    | ABin o a b => HBin o a b (aexpr_ind' a) (aexpr_ind' b)
    | ATern c a b => HTern c a b (aexpr_ind' c) (aexpr_ind' a) (aexpr_ind' b)
    end
  with atype_ind' (t : atype) : Q t :=
    let args := fix go (l : list aexpr) : Forall P l := match l with [] => Forall_nil _ | e :: l => Forall_cons _ (aexpr_ind' e) (go l) end in
    let opt o : opt_all P o := match o with Some e => aexpr_ind' e | None => I end in
    match t with
    | YScalar s => HScalar s | YF32 => HF32 | YF64 => HF64 | YBool => HTBool
    | YRef x l => HTRef x l (args l)
    | YEnum rep items => HEnum rep items ((fix go (l : list (name * aenum)) : Forall (fun i => enum_all (snd i)) l :=
        match l with [] => Forall_nil _ | (x, v) :: l => Forall_cons (x, v) (match v return enum_all v with VExpr e => aexpr_ind' e | _ => I end) (go l) end) items)
    | YBits rep items => HBits rep items ((fix go (l : list (name * option aexpr)) : Forall (fun i : name * option aexpr => opt_all P (snd i)) l :=
        match l with [] => Forall_nil _ | (x, v) :: l => Forall_cons (x, v) (match v return opt_all P v with Some e => aexpr_ind' e | None => I end) (go l) end) items)
    | YCont len flags items => HCont len flags items (match len return opt_all P len with Some e => aexpr_ind' e | None => I end)
        ((fix go (l : list aitem) : Forall item_all l :=
        match l with [] => Forall_nil _ | i :: l => Forall_cons i (match i return item_all i with IPad e => aexpr_ind' e | IField _ f => afield_ind' f end) (go l) end) items)
    | YArr t ex len => HArr t ex len (atype_ind' t) (match len return opt_all P len with Some e => aexpr_ind' e | None => I end)
    end
  with afield_ind' (f : afield) : G f :=
    match f with
    | AField t calc flags cond xs => HField t calc flags cond xs (atype_ind' t) (match calc return opt_all P calc with Some e => aexpr_ind' e | None => I end)
        (match cond return opt_all P cond with Some e => aexpr_ind' e | None => I end)
        ((fix go (l : list axform) : Forall xform_all l :=
        match l with
        | [] => Forall_nil _
        | x :: l => Forall_cons x (match x return xform_all x with AXform _ args cond =>
            conj ((fix go (l : list aexpr) : Forall P l := match l with [] => Forall_nil _ | e :: l => Forall_cons _ (aexpr_ind' e) (go l) end) args)
                 (match cond return opt_all P cond with Some e => aexpr_ind' e | None => I end) end) (go l)
        end) xs)
    end.
  Lemma syntax_ind : (forall e, P e) /\ (forall t, Q t) /\ (forall f, G f).
  Proof. exact (conj aexpr_ind' (conj atype_ind' afield_ind')). Qed.
End Ind.

(** ** Growth *)
Lemma grow_refl p : grow p p. Proof. constructor; auto. intros i f E _. exists f. auto. Qed.
Lemma grow_trans p q r : grow p q -> grow q r -> grow p r.
Proof.
  intros [A B C D E] [A' B' C' D' E']. constructor; auto. intros i f G U. destruct (E i f G U) as (f' & G' & T).
  destruct (E' i f' G') as (f'' & G'' & T''); [rewrite T; exact U|]. exists f''. split; [exact G''|congruence].
Qed.

(** The scope as a flat list of declarations, nearest first. *)
Definition scoped (sc : scope) (F : list (name * nat)) (I : list (name * fty)) : Prop :=
  forall x, resolve_field sc x = mget x F /\ resolve_input sc x = mget x I.
Lemma mget_app {A} x (a b : list (name * A)) : mget x (a ++ b) = match mget x a with Some v => Some v | None => mget x b end.
Proof. induction a as [|[k v] a IH]; cbn; [reflexivity|]. destruct (name_eqb x k); [reflexivity|exact IH]. Qed.
Lemma scoped_frame0 sc F I : scoped sc F I -> scoped (frame0 :: sc) F I.
Proof. intros H x. apply H. Qed.
Lemma scoped_fields sc F I fs : scoped sc F I -> scoped ({| fr_fields := fs; fr_inputs := [] |} :: sc) (fs ++ F) I.
Proof. intros H x. cbn [resolve_field resolve_input fr_fields fr_inputs mget]. rewrite mget_app. destruct (H x) as [-> ->]. split; reflexivity. Qed.

(** ** Expressions *)
Lemma pcoerce_coerce n p x t u : pcoerce n p x t = Ok true -> into_type x = Some u -> coerce n p t u = Ok true.
Proof.
  unfold pcoerce. intros H U. destruct (resolved n p t) as [a| | |] eqn:E; cbn [bind] in H; try discriminate H.
  assert (K : forall u, coerce n p a u = coerce n p t u).
  { intros u0. unfold coerce. rewrite E. cbn [bind]. assert (Q : resolved n p a = Ok a).
    { clear - E. revert t E. induction n as [|m IH]; intros t E; destruct t; cbn in E; try discriminate; try (apply Ok_inj in E; subst; reflexivity).
      destruct (fget p target) as [f|]; [|discriminate]. apply IH in E. clear - E. destruct a; try reflexivity. destruct m; [discriminate|].
      cbn in *. destruct (fget p target); [|discriminate]. exfalso. clear - E. revert E. generalize (f_type f). induction m as [|m IH]; intros t E; destruct t; cbn in E; try discriminate.
      destruct (fget p target0); [|discriminate]. eapply IH; exact E. }
    rewrite Q. reflexivity. }
  destruct x as [v|s|a'|]; cbn [into_type] in U; try discriminate U.
  - injection U as ->. rewrite <- K. exact H.
  - destruct s as [s|s|]; try discriminate U; injection U as <-; rewrite <- K; destruct a; try exact H;
      destruct (can_implicit_cast_to (es_scalar rep) s) eqn:C; try exact H; unfold coerce; destruct n; cbn [resolved bind be es_scalar]; rewrite C; reflexivity.
Qed.
Lemma fit_mirror en n p p'' F I e e0 x e' : grow p p'' -> mirror n p'' F I e e0 -> fit en n p e0 x = Ok e' -> mirror n p'' F I e e'.
Proof.
  intros G M H. unfold fit in H. destruct (get_type n p e0) as [[t|]| | |] eqn:T; cbn [bind] in H; try discriminate H.
  destruct (passign en n p x t) as [[|]| | |]; cbn [bind] in H; try discriminate H; [apply Ok_inj in H; subst; exact M|].
  destruct (pcoerce n p x t) as [[|]| | |] eqn:C; cbn [bind] in H; try discriminate H.
  destruct (into_type x) as [u|] eqn:U; [|discriminate H]. apply Ok_inj in H. subst e'.
  eapply m_coerce; [exact M|exact G|exact T|]. eapply pcoerce_coerce; eassumption.
Qed.

Section Expr.
  Variables (en : env) (n : nat) (p p'' : prog) (sc : scope) (F : list (name * nat)) (I : list (name * fty)).
  Hypothesis (HS : scoped sc F I) (HG : grow p p'').
  Let Pe (e : aexpr) : Prop := forall x e', cexpr en n p sc e x = Ok e' -> mirror n p'' F I e e'.
  Let Pt (t : atype) : Prop := forall u t', cinl en n p sc t u = Ok t' -> minl n p'' F I t t'.

  Lemma bind_fit r x e e' : bind r (fun e' => fit en n p e' x) = Ok e' -> (forall e0, r = Ok e0 -> mirror n p'' F I e e0) -> mirror n p'' F I e e'.
  Proof. intros H K. destruct r as [e0| | |]; cbn [bind] in H; try discriminate H. eapply fit_mirror; [exact HG|apply K; reflexivity|exact H]. Qed.

  Lemma ffi_args args : Forall Pe args -> forall ps r,
    (fix go (l : list aexpr) (ps : list fparam) {struct l} : R (list fexpr) :=
     match l, ps with
     | e :: l, q :: ps =>
         let! xt := match fp_type q with Some t => into_partial n p t | None => Ok PAny end in
         let! e' := cexpr en n p sc e xt in let! r := go l ps in Ok (e' :: r)
     | _, _ => Ok []
     end) args ps = Ok r -> (List.length args <= List.length ps)%nat -> Forall2 (mirror n p'' F I) args r.
  Proof.
    induction 1 as [|e args He _ IH]; intros ps r H L; [apply Ok_inj in H; subst; constructor|]. destruct ps as [|q ps]; [cbn in L; lia|]. cbn [bind] in H.
    match type of H with bind ?r _ = _ => destruct r as [x| | |]; cbn [bind] in H; try discriminate H end.
    destruct (cexpr en n p sc e x) as [e'| | |] eqn:E; cbn [bind] in H; try discriminate H.
    match type of H with bind ?r _ = _ => destruct r as [l'| | |] eqn:El; cbn [bind] in H; try discriminate H end. apply Ok_inj in H. subst r.
    constructor; [eapply He; exact E|]. eapply IH; [exact El|cbn in L; lia].
  Qed.
  Lemma type_args args : Forall Pe args -> forall ps r,
    (fix go (l : list aexpr) (ps : list param) {struct l} : R (list fexpr) :=
     match l, ps with
     | e :: l, q :: ps =>
         let! xt := into_partial n p (pm_type q) in
         let! e' := cexpr en n p sc e xt in let! r := go l ps in Ok (e' :: r)
     | _, _ => Ok []
     end) args ps = Ok r -> (List.length args <= List.length ps)%nat -> Forall2 (mirror n p'' F I) args r.
  Proof.
    induction 1 as [|e args He _ IH]; intros ps r H L; [apply Ok_inj in H; subst; constructor|]. destruct ps as [|q ps]; [cbn in L; lia|]. cbn [bind] in H.
    destruct (into_partial n p (pm_type q)) as [x| | |]; cbn [bind] in H; try discriminate H.
    destruct (cexpr en n p sc e x) as [e'| | |] eqn:E; cbn [bind] in H; try discriminate H.
    match type of H with bind ?r _ = _ => destruct r as [l'| | |] eqn:El; cbn [bind] in H; try discriminate H end. apply Ok_inj in H. subst r.
    constructor; [eapply He; exact E|]. eapply IH; [exact El|cbn in L; lia].
  Qed.
  Lemma ffi_check_le got ps v : ffi_check got ps = Ok v -> (got <= List.length ps)%nat.
  Proof. unfold ffi_check. destruct (_ && _); [discriminate|]. destruct (_ || _) eqn:O; [discriminate|]. intros _. apply orb_false_iff in O as [_ O]. apply Nat.ltb_ge in O. exact O. Qed.
  Lemma type_check_le got ps v : type_check got ps = Ok v -> (got <= List.length ps)%nat.
  Proof. unfold type_check. destruct (_ && _); [discriminate|]. destruct (_ || _) eqn:O; [discriminate|]. intros _. apply orb_false_iff in O as [_ O]. apply Nat.ltb_ge in O. exact O. Qed.

  Lemma conversion : (forall e, Pe e) /\ (forall t, Pt t) /\ (forall f : afield, True).
  Proof.
    apply syntax_ind; unfold Pe, Pt; try (intros; exact Logic.I).
    - intros v ty x e' H. cbn [cexpr] in H. apply bind_fit with (e := AInt v ty) in H; [exact H|]. clear H. intros e0 H.
      destruct (match ty with Some s => Ok s | None => _ end) as [s| | |] eqn:S0; cbn [bind] in H; try discriminate H.
      destruct (ci_parse s v) as [c|] eqn:C; [|discriminate H]. apply Ok_inj in H. subst e0.
      assert (ci_ty c = s).
      { clear - C. unfold ci_parse, from_str_radix in C. repeat match type of C with match ?m with _ => _ end = _ => destruct m; try discriminate C end; injection C as <-; reflexivity. }
      constructor; [congruence|]. intros s' ->. apply Ok_inj in S0. congruence.
    - intros s x e' H. cbn [cexpr] in H. apply bind_fit with (e := AStr s) in H; [exact H|]. intros e0 E. apply Ok_inj in E. subst. constructor.
    - intros b x e' H. cbn [cexpr] in H. apply bind_fit with (e := ABool b) in H; [exact H|]. intros e0 E. apply Ok_inj in E. subst. constructor.
    - intros y x e' H. cbn [cexpr] in H. apply bind_fit with (e := ARef y) in H; [exact H|]. clear H. intros e0 H. destruct (HS y) as [R1 R2].
      destruct (resolve_field sc y) as [i|]; [apply Ok_inj in H; subst; constructor; congruence|].
      destruct (resolve_input sc y) as [t|]; [apply Ok_inj in H; subst; constructor; congruence|].
      destruct (mget y (p_consts p)) as [c|] eqn:C; [|discriminate H]. apply Ok_inj in H. subst. constructor; try congruence. apply (g_consts _ _ HG). exact C.
    - intros y v x e' H. cbn [cexpr] in H. apply bind_fit with (e := AEnumAccess y v) in H; [exact H|]. clear H. intros e0 H.
      destruct (mget y (p_types p)) as [i|] eqn:Ei; [|discriminate H]. destruct (fget p i) as [f|] eqn:Ef; [|discriminate H].
      destruct (f_type f) eqn:Et; try discriminate H.
      + destruct (mget v items) as [[c|]|] eqn:M; try discriminate H. apply Ok_inj in H. subst. destruct (g_enums _ _ HG _ _ Ef) as (f' & Ef' & T); [rewrite Et; exact Logic.I|].
        eapply m_enum; [apply (g_types _ _ HG); exact Ei|exact Ef'|]. rewrite T, Et. exact M.
      + destruct (mget v items) as [c|] eqn:M; try discriminate H. apply Ok_inj in H. subst. destruct (g_enums _ _ HG _ _ Ef) as (f' & Ef' & T); [rewrite Et; exact Logic.I|].
        eapply m_enum; [apply (g_types _ _ HG); exact Ei|exact Ef'|]. rewrite T, Et. exact M.
    - intros f args A x e' H. cbn [cexpr] in H. apply bind_fit with (e := ACall f args) in H; [exact H|]. clear H. intros e0 H.
      destruct (mget f (p_funcs p)) as [fn|] eqn:Ef; [|discriminate H]. destruct (ffi_check (List.length args) (fn_params fn)) eqn:Ec; cbn [bind] in H; try discriminate H.
      match type of H with bind ?r _ = _ => destruct r as [out| | |] eqn:Eo; cbn [bind] in H; try discriminate H end. apply Ok_inj in H. subst e0.
      eapply m_call; [apply (g_funcs _ _ HG); exact Ef|]. eapply ffi_args; [exact A|exact Eo|eapply ffi_check_le; exact Ec].
    - intros a i Ha Hi x e' H. cbn [cexpr] in H. apply bind_fit with (e := AIndex a i) in H; [exact H|]. clear H. intros e0 H.
      destruct (cexpr en n p sc a _) as [a'| | |] eqn:Ea; cbn [bind] in H; try discriminate H. destruct (cexpr en n p sc i _) as [i'| | |] eqn:Ei; cbn [bind] in H; try discriminate H.
      apply Ok_inj in H. subst. constructor; eauto.
    - intros e m He x e' H. cbn [cexpr] in H. apply bind_fit with (e := AMember e m) in H; [exact H|]. clear H. intros e0 H.
      destruct (cexpr en n p sc e _) as [a'| | |] eqn:Ea; cbn [bind] in H; try discriminate H.
      destruct (get_type n p a') as [[t|]| | |] eqn:T; cbn [bind] in H; try discriminate H. destruct (resolved n p t) as [r| | |] eqn:Rr; cbn [bind] in H; try discriminate H.
      destruct r; try discriminate H. destruct (mget m items) as [c|] eqn:M; [|discriminate H]. apply Ok_inj in H. subst. eapply m_member; eauto.
    - intros o e He x e' H. cbn [cexpr] in H. apply bind_fit with (e := AUn o e) in H; [exact H|]. clear H. intros e0 H.
      destruct (cexpr en n p sc e x) as [a'| | |] eqn:Ea; cbn [bind] in H; try discriminate H.
      assert (e0 = FUn o a') by (destruct o; run H; reflexivity). subst e0. constructor. eauto.
    - intros e t He Ht x e' H. cbn [cexpr] in H. apply bind_fit with (e := ACast e t) in H; [exact H|]. clear H. intros e0 H.
      assert (K : bind (cinl en n p sc t ForExpr) (fun t' => bind (cexpr en n p sc e PAny) (fun e' => bind (get_type n p e') (fun ty => match ty with Some ty => bind (castable en n p ty t') (fun k => if k then Ok (FCast e' t') else Err XIllegalCast) | None => Err XUninferred end))) = Ok e0)
        by (destruct t; try discriminate H; exact H).
      clear H. destruct (cinl en n p sc t ForExpr) as [t'| | |] eqn:Et; cbn [bind] in K; try discriminate K. destruct (cexpr en n p sc e PAny) as [a'| | |] eqn:Ea; cbn [bind] in K; try discriminate K.
      destruct (get_type n p a') as [[ty|]| | |]; cbn [bind] in K; try discriminate K. destruct (castable en n p ty t') as [[|]| | |]; cbn [bind] in K; try discriminate K. apply Ok_inj in K. subst. constructor; eauto.
    - intros o a b Ha Hb x e' H. cbn [cexpr] in H. apply bind_fit with (e := ABin o a b) in H; [exact H|]. clear H. intros e0 H.
      match type of H with bind ?r _ = _ => destruct r as [k| | |]; cbn [bind] in H; try discriminate H end. destruct (negb k); [discriminate H|].
      destruct (cexpr en n p sc a (init_expected o x)) as [l'|er| |] eqn:El; try discriminate H.
      + destruct (get_type n p l') as [[t|]| | |]; cbn [bind] in H; try discriminate H. destruct (into_partial n p t) as [xt| | |]; cbn [bind] in H; try discriminate H.
        destruct (cexpr en n p sc b xt) as [r'| | |] eqn:Er; cbn [bind] in H; try discriminate H. apply Ok_inj in H. subst. constructor; eauto.
      + destruct (cexpr en n p sc b (init_expected o x)) as [r'| | |] eqn:Er; cbn [bind] in H; try discriminate H.
        destruct (get_type n p r') as [[t|]| | |]; cbn [bind] in H; try discriminate H. destruct (into_partial n p t) as [xt| | |]; cbn [bind] in H; try discriminate H.
        destruct (cexpr en n p sc a xt) as [l'| | |] eqn:El'; cbn [bind] in H; try discriminate H. apply Ok_inj in H. subst. constructor; eauto.
    - intros c a b Hc Ha Hb x e' H. cbn [cexpr] in H. apply bind_fit with (e := ATern c a b) in H; [exact H|]. clear H. intros e0 H.
      destruct (cexpr en n p sc c _) as [c'| | |] eqn:Ec; cbn [bind] in H; try discriminate H. destruct (cexpr en n p sc a x) as [a'| | |] eqn:Ea; cbn [bind] in H; try discriminate H.
      match type of H with bind ?r _ = _ => destruct r as [xt| | |]; cbn [bind] in H; try discriminate H end.
      destruct (cexpr en n p sc b xt) as [b'| | |] eqn:Eb; cbn [bind] in H; try discriminate H. apply Ok_inj in H. subst. constructor; eauto.
    - intros s u t' H. apply Ok_inj in H. subst. constructor.
    - intros u t' H. apply Ok_inj in H. subst. constructor.
    - intros u t' H. apply Ok_inj in H. subst. constructor.
    - intros u t' H. apply Ok_inj in H. subst. constructor.
    - intros y args A u t' H. cbn [cinl] in H. destruct (mget y (p_types p)) as [i|] eqn:Ei; [|discriminate H]. destruct (fget p i) as [f|] eqn:Ef; [|discriminate H].
      destruct (type_check (List.length args) (f_params f)) eqn:Ec; cbn [bind] in H; try discriminate H.
      match type of H with bind ?r _ = _ => destruct r as [out| | |] eqn:Eo; cbn [bind] in H; try discriminate H end. apply Ok_inj in H. subst t'.
      constructor; [apply (g_types _ _ HG); exact Ei|]. eapply type_args; [exact A|exact Eo|eapply type_check_le; exact Ec].
    - intros rep items _ u t' H. cbn [cinl] in H. destruct u; discriminate H.
    - intros rep items _ u t' H. cbn [cinl] in H. destruct u; discriminate H.
    - intros len flags items _ _ u t' H. cbn [cinl] in H. destruct u; discriminate H.
    - intros t ex len Ht Hl u t' H.
      change (bind (match len with None => Ok None | Some e => bind (cexpr en n p sc e (if ex then PArray (Some (PScalar (PSome U8))) else PScalar (PSome U64))) (fun e' => Ok (Some e')) end)
        (fun len' => bind (cinl en n p sc t ForArray) (fun el' => Ok (FArr el' ex len'))) = Ok t') in H. destruct len as [e|].
      + destruct (cexpr en n p sc e _) as [e'| | |] eqn:Ee; cbn [bind] in H; try discriminate H. destruct (cinl en n p sc t ForArray) as [el| | |] eqn:El; cbn [bind] in H; try discriminate H.
        apply Ok_inj in H. subst. constructor; [eauto|discriminate|]. intros e0 [= <-]. exists e'. split; [reflexivity|]. eapply Hl. exact Ee.
      + cbn [bind] in H. destruct (cinl en n p sc t ForArray) as [el| | |] eqn:El; cbn [bind] in H; try discriminate H.
        apply Ok_inj in H. subst. constructor; [eauto|reflexivity|discriminate].
  Qed.
  Lemma cexpr_mirror e x e' : cexpr en n p sc e x = Ok e' -> mirror n p'' F I e e'.
  Proof. apply (proj1 conversion). Qed.
  Lemma cinl_minl t u t' : cinl en n p sc t u = Ok t' -> minl n p'' F I t t'.
  Proof. apply (proj1 (proj2 conversion)). Qed.
  Lemma copt_rel e x e' : copt en n p sc e x = Ok e' -> opt_rel (mirror n p'' F I) e e'.
  Proof.
    unfold copt. destruct e as [e|]; intros H; [|apply Ok_inj in H; subst; exact Logic.I]. destruct (cexpr en n p sc e x) as [e0| | |] eqn:E; cbn [bind] in H; try discriminate H.
    apply Ok_inj in H. subst. cbn. eapply cexpr_mirror. exact E.
  Qed.
  Lemma cargs_rel args : forall ps out, cargs en n p sc args (map (ffi_expected n p) ps) = Ok out -> (List.length args <= List.length ps)%nat -> Forall2 (mirror n p'' F I) args out.
  Proof.
    induction args as [|e args IH]; intros ps out H L; [apply Ok_inj in H; subst; constructor|]. destruct ps as [|q ps]; [cbn in L; lia|]. cbn [cargs map] in H.
    destruct (ffi_expected n p q) as [x| | |]; cbn [bind] in H; try discriminate H. destruct (cexpr en n p sc e x) as [e'| | |] eqn:E; cbn [bind] in H; try discriminate H.
    destruct (cargs en n p sc args _) as [l'| | |] eqn:El; cbn [bind] in H; try discriminate H. apply Ok_inj in H. subst. constructor; [eapply cexpr_mirror; exact E|]. eapply IH; [exact El|cbn in L; lia].
  Qed.
  Lemma cxforms_rel xs : forall out, cxforms en n p sc xs = Ok out -> Forall2 (xform_rel n p'' F I) xs out.
  Proof.
    induction xs as [|[g args cond] xs IH]; intros out H; [apply Ok_inj in H; subst; constructor|]. cbn [cxforms] in H.
    destruct (mget g (p_xforms p)) as [ps|] eqn:Eg; [|discriminate H]. destruct (ffi_check (List.length args) ps) eqn:Ec; cbn [bind] in H; try discriminate H.
    destruct (cargs en n p sc args _) as [args'| | |] eqn:Ea; cbn [bind] in H; try discriminate H. destruct (copt en n p sc cond _) as [cond'| | |] eqn:Eo; cbn [bind] in H; try discriminate H.
    destruct (cxforms en n p sc xs) as [r| | |] eqn:Er; cbn [bind] in H; try discriminate H. apply Ok_inj in H. subst. constructor; [|apply IH; reflexivity].
    split; [reflexivity|]. cbn [xu_args xu_cond]. split; [eapply cargs_rel; [exact Ea|eapply ffi_check_le; exact Ec]|eapply copt_rel; exact Eo].
  Qed.
End Expr.
