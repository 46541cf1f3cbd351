(** What the analysis guarantees about names reaches the code generator: C30 for accepted programs. *)
From Verif Require Import Base Scalar ConstInt Tokens Ast Parse Front Program FrontFacts ElabSpec ElabFacts ElabTypes ElabProgram.
From Verif Require Import EnumBits Expr Asg Gen Decode Encode Spec EncWf ScopeSpec ScopeDec ConstSpec LowerSpec Lower.
From Verif Require Import Front ElabSpec.
From Coq Require Import Lia.
Open Scope string_scope. Open Scope Z_scope. Open Scope list_scope.

Lemma obnd_some {A B} (o : option A) (f : A -> option B) b : obnd o f = Some b -> exists a, o = Some a /\ f a = Some b.
Proof. destruct o as [a|]; [|discriminate]. eauto. Qed.
Ltac inv_n H a E := apply obnd_some in H as (a & E & H).
Ltac inv_o H := let a := fresh "a" in let E := fresh "E" in apply obnd_some in H as (a & E & H).

Lemma traverse_rel {A B} (f : A -> option B) : forall l l', traverse f l = Some l' -> Forall2 (fun x y => f x = Some y) l l'.
Proof. induction l as [|x l IH]; intros l' H; cbn in H; [injection H as <-; constructor|]. inv_o H. inv_o H. injection H as <-. constructor; auto. Qed.

Section Scope.
  Variables (n : nat) (chk : bool) (p : prog).

  (** The fields in scope are named as they say; those that have a variable are visible. *)
  Definition named (F : list (name * nat)) : Prop := forall x i, In (x, i) F -> exists fd, fget p i = Some fd /\ f_name fd = x.
  Definition covers (F : list (name * nat)) (vis : list string) : Prop :=
    forall x i fd, In (x, i) F -> fget p i = Some fd -> is_fcont (f_type fd) = false -> In (ident x) vis.

  Lemma mget_in {A} x (m : list (name * A)) v : mget x m = Some v -> In (x, v) m.
  Proof. induction m as [|[k w] m IH]; cbn; [discriminate|]. destruct (name_eqb x k) eqn:E; [|auto]. apply name_eqb_eq in E as ->. injection 1 as ->. auto. Qed.

  Section Vis.
    Variables (F : list (name * nat)) (I : list (name * fty)) (vis : list string).
    Hypothesis HN : named F.
    Hypothesis HC : covers F vis.

    Fixpoint expr_vis (e' : fexpr) {struct e'} : forall e m x, mirror n p F I e e' -> lower_expr chk p m false e' = Some x -> incl (fv x) vis.
    Proof.
      destruct e' as [o l r|o e1|e1 t|a i|i v c|c|y t v|y t|i|s|c a b|b|g args|e1 m0 c]; intros e m x M L; cbn [lower_expr] in L.
      - inv_o L. inv_o L. injection L as <-. cbn [fv]. inversion M; subst. apply incl_app; match goal with Hl : lower_expr _ _ _ _ ?e0 = Some ?y |- incl (fv ?y) vis => eapply (expr_vis e0); [|exact Hl]; eassumption end.
      - inv_o L. injection L as <-. cbn [fv]. inversion M; subst. match goal with Hl : lower_expr _ _ _ _ ?e0 = Some ?y |- incl (fv ?y) vis => eapply (expr_vis e0); [|exact Hl]; eassumption end.
      - inv_o L. inv_o L. injection L as <-. cbn [fv]. inversion M; subst; match goal with Hl : lower_expr _ _ _ _ ?e0 = Some ?y |- incl (fv ?y) vis => eapply (expr_vis e0); [|exact Hl]; eassumption end.
      - inv_o L. inv_o L. injection L as <-. cbn [fv]. inversion M; subst. apply incl_app; match goal with Hl : lower_expr _ _ _ _ ?e0 = Some ?y |- incl (fv ?y) vis => eapply (expr_vis e0); [|exact Hl]; eassumption end.
      - inv_o L. destruct (f_type a); try discriminate L; inv_o L; inv_o L; injection L as <-; apply incl_nil_l.
      - injection L as <-. apply incl_nil_l.
      - inv_o L. inv_o L. injection L as <-. apply incl_nil_l.
      - inv_o L. injection L as <-. apply incl_nil_l.
      - inv_o L. destruct (is_fcont (f_type a)) eqn:Ec; [discriminate L|]. inv_o L. injection L as <-. cbn [fv]. inversion M; subst.
        match goal with Hm : mget _ F = _ |- _ => apply mget_in in Hm; rename Hm into H1 end. destruct (HN _ _ H1) as (fd & Ef & <-). assert (fd = a) as -> by congruence. intros z [<-|[]]. eapply HC; eassumption.
      - injection L as <-. apply incl_nil_l.
      - inv_o L. inv_o L. inv_o L. injection L as <-. cbn [fv]. inversion M; subst. apply incl_app; [|apply incl_app]; match goal with Hl : lower_expr _ _ _ _ ?e0 = Some ?y |- incl (fv ?y) vis => eapply (expr_vis e0); [|exact Hl]; eassumption end.
      - injection L as <-. apply incl_nil_l.
      - destruct (String.eqb (ident g) "blen"); [discriminate L|]. inv_o L. injection L as <-. inversion M; subst. clear M. cbn [fv].
        match goal with H : Forall2 _ _ _ |- _ => rename H into Fa end.
        revert a E args0 Fa. induction args as [|y args IH]; intros xs E0 es Fa; cbn in E0.
        + injection E0 as <-. apply incl_nil_l.
        + inv_o E0. inv_o E0. injection E0 as <-. inversion Fa; subst. apply incl_app; [match goal with Hl : lower_expr _ _ _ _ ?e0 = Some ?y |- incl (fv ?y) vis => eapply (expr_vis e0); [|exact Hl]; eassumption end|]. eapply IH; eassumption.
      - inv_o L. destruct (feval chk c) as [[[z| |]|]| | |]; try discriminate L. injection L as <-. cbn [fv]. inversion M; subst. match goal with Hl : lower_expr _ _ _ _ ?e0 = Some ?y |- incl (fv ?y) vis => eapply (expr_vis e0); [|exact Hl]; eassumption end.
    Qed.
    Lemma exprs_vis : forall es es' xs m, Forall2 (mirror n p F I) es es' -> traverse (lower_expr chk p m false) es' = Some xs -> incl (fvs xs) vis.
    Proof.
      intros es es' xs m M. revert xs. induction M as [|e e' es es' H M IH]; intros xs L; cbn in L; [injection L as <-; apply incl_nil_l|].
      inv_o L. inv_o L. injection L as <-. unfold fvs. cbn [flat_map]. apply incl_app; [eapply expr_vis; eassumption|apply IH, E0].
    Qed.
    Lemma opt_vis m e e' x : opt_rel (mirror n p F I) e e' -> opto (lower_expr chk p m false) e' = Some x -> incl (fvo x) vis.
    Proof.
      destruct e as [e|], e' as [e'|]; cbn [opt_rel]; try contradiction; intros M L; cbn in L; [|injection L as <-; apply incl_nil_l].
      inv_o L. injection L as <-. cbn [fvo]. eapply expr_vis; eassumption.
    Qed.
    Lemma xs_vis m : forall xs us ys, Forall2 (xform_rel n p F I) xs us -> traverse (lower_x chk p m) us = Some ys -> incl (xs_fv ys) vis.
    Proof.
      intros xs us ys M. revert ys. induction M as [|x u xs us H M IH]; intros ys L; cbn in L; [injection L as <-; apply incl_nil_l|].
      inv_o L. inv_o L. injection L as <-. unfold lower_x in E. inv_o E. inv_o E. injection E as <-. destruct x as [g args cnd]. destruct H as (_ & Ha & Hc).
      unfold xs_fv. cbn [flat_map x_cond x_args]. apply incl_app; [apply incl_app; [eapply opt_vis; eassumption|eapply exprs_vis; eassumption]|]. apply IH. exact E0.
    Qed.
    Lemma inl_vis : forall m t t' x, minl n p F I t t' -> lower_type chk p m t' = Some x -> is_cont x = false /\ incl (ty_fv x) vis.
    Proof.
      induction m as [|m IH]; intros t t' x M L; [discriminate L|]. inversion M; subst; cbn [lower_type] in L; try (injection L as <-; split; [reflexivity|apply incl_nil_l]).
      - inv_o L. inv_o L. injection L as <-. split; [reflexivity|]. cbn [ty_fv]. eapply exprs_vis; eassumption.
      - inv_o L. inv_o L. injection L as <-. split; [reflexivity|]. cbn [ty_fv]. apply incl_app; [|eapply IH; eassumption].
        unfold lower_len in E0. destruct ex, len as [e|]; cbn in E0.
        + destruct (H1 e eq_refl) as (e' & -> & Me). cbn in E0. inv_o E0. injection E0 as <-. eapply expr_vis; eassumption.
        + rewrite (H0 eq_refl) in E0. injection E0 as <-. apply incl_nil_l.
        + destruct (H1 e eq_refl) as (e' & -> & Me). cbn in E0. inv_o E0. injection E0 as <-. eapply expr_vis; eassumption.
        + rewrite (H0 eq_refl) in E0. discriminate E0.
    Qed.
  End Vis.

  Lemma lower_noncont m t x : lower_type chk p m t = Some x -> is_cont x = is_fcont t.
  Proof.
    destruct m as [|m]; [discriminate|]. destruct t; cbn [lower_type]; intros L; repeat (inv_o L); try (injection L as <-); reflexivity.
  Qed.
  Definition dgo := fix go (vis : list string) (l : list (fattr * ty)) : bool :=
    match l with
    | [] => true
    | (a, t') :: l => subset (fvo (fa_cond a) ++ xs_fv (fa_xs a)) vis && dnames vis t' && go (if is_cont t' || fa_pad a then vis else fa_name a :: vis) l
    end.
  Lemma dnames_cont vis len tg items : dnames vis (TCont len tg items) = negb tg && subset (fvo len) vis && dgo vis items.
  Proof. reflexivity. Qed.
  Lemma dnames_flat vis t : is_cont t = false -> dnames vis t = subset (ty_fv t) vis.
  Proof. destruct t; try reflexivity. discriminate. Qed.
  Lemma covers_app F G vis : covers F vis -> covers G vis -> covers (F ++ G) vis.
  Proof. intros A B x i fd H. apply in_app_or in H as [H|H]; [eapply A|eapply B]; exact H. Qed.
  Lemma covers_more F vis v : covers F vis -> covers F (v :: vis).
  Proof. intros A x i fd H E C. right. eapply A; eassumption. Qed.
  Lemma named_app F G : named F -> named G -> named (F ++ G).
  Proof. intros A B x i H. apply in_app_or in H as [H|H]; [eapply A|eapply B]; exact H. Qed.

  Definition untagged (t : fty) : Prop := match t with FCont _ _ tg => tg = false | _ => True end.

  Lemma elab_vis I : forall m F vis top t t' x, named F -> covers F vis -> elab n p F I top t t' -> untagged t' -> lower_type chk p m t' = Some x -> dnames vis x = true.
  Proof.
    induction m as [|m IH]; intros F vis top t t' x HN HC El U L; [discriminate L|]. inversion El; subst.
    - destruct (inl_vis F I vis HN HC (S m) _ _ _ H L) as [A B]. rewrite dnames_flat by exact A. apply subset_in, B.
    - cbn [lower_type] in L. inv_o L. injection L as <-. reflexivity.
    - cbn [lower_type] in L. inv_o L. injection L as <-. reflexivity.
    - rename H into Hl, H4 into Hit. cbn [untagged] in U. subst tagged. cbn [lower_type] in L. inv_o L. inv_o L. injection L as <-.
      rewrite dnames_cont. rewrite (proj2 (subset_in _ _) (opt_vis F I vis HN HC m _ _ _ Hl E)). cbn [negb andb].
      clear Hl E El H0 H1 H2 H3 len flags len' top.
      set (all := fields_of items its) in Hit. clearbody all.
      assert (HN' : named ([] ++ F)) by exact HN. assert (HC' : covers ([] ++ F) vis) by exact HC. clear HN HC.
      revert E0. revert a0. generalize dependent vis. remember ([] : list (name * nat)) as before eqn:Eb. clear Eb. remember O as k eqn:Ek. clear Ek.
      induction Hit as [F I all before k|F I all before k y t calc cnd xs l i fd l' Hf Hn Hp Htop Hpad Ht Hc Hx Hcalc Hit IHit|F I all before k e l i fd ln l' Hf Hpad Ht Hcalc Hc Hx Hps Hn Hm Hit IHit];
        intros vis HC out E; cbn [traverse] in E.
      + injection E as <-. reflexivity.
      + inv_n E x1 Ex. inv_n E rest Er. injection E as <-. cbn [snd] in Ex. inv_n Ex fd' Ef. assert (fd' = fd) as -> by congruence. inv_n Ex at1 Ea. inv_n Ex t1 Et. injection Ex as <-.
        unfold lower_attr in Ea. inv_n Ea c1 Ek. inv_n Ea c2 Ec. inv_n Ea c3 Exs. injection Ea as <-. cbn [dgo fa_cond fa_xs fa_pad fa_name]. rewrite Hpad, Bool.orb_false_r.
        rewrite (proj2 (subset_app _ _ _) (conj (proj2 (subset_in _ _) (opt_vis (before ++ F) I vis HN' HC m _ _ _ Hc Ec)) (proj2 (subset_in _ _) (xs_vis (before ++ F) I vis HN' HC m _ _ _ Hx Exs)))).
        assert (Un : untagged (f_type fd)).
        { inversion Ht as [? ? ? Hm|? ? ? ? ? ?|? ? ? ? ? ?|? ? ? ? ? ? tg ? ? ? Ht2 ? ?]; subst; try exact Logic.I; [inversion Hm; exact Logic.I|]. destruct tg; [destruct (Ht2 eq_refl) as [Z _]; congruence|reflexivity]. }
        rewrite (IH (before ++ F) vis _ _ _ _ HN' HC Ht Un Et). cbn [andb]. rewrite (lower_noncont _ _ _ Et).
        apply IHit; [exact IH|intros z j [Ez|Hz]; [injection Ez as <- <-; eauto|apply HN', Hz]| |exact Er].
        intros z j fz [Ez|Hz] Efz Ecz; [injection Ez as <- <-; assert (fz = fd) as -> by congruence; rewrite Ecz, <- Hn; left; reflexivity|].
        destruct (is_fcont (f_type fd)); [|right]; eapply HC; eassumption.
      + inv_n E x1 Ex. inv_n E rest Er. injection E as <-. cbn [snd] in Ex. inv_n Ex fd' Ef. assert (fd' = fd) as -> by congruence. inv_n Ex at1 Ea. inv_n Ex t1 Et. injection Ex as <-.
        unfold lower_attr in Ea. rewrite Hcalc, Hc, Hx in Ea. cbn in Ea. injection Ea as <-. cbn [dgo fa_cond fa_xs fa_pad fa_name fvo xs_fv flat_map app subset forallb andb]. rewrite Hpad, Bool.orb_true_r.
        rewrite Ht in Et. assert (D : dnames vis t1 = true).
        { destruct m as [|m]; [discriminate Et|]. cbn [lower_type] in Et. inv_n Et e1 El. inv_n Et l1 Ell. injection Et as <-. cbn [dnames ty_fv]. apply subset_in. apply incl_app.
          - unfold lower_len in Ell. inv_n Ell e2 E2. injection Ell as <-. eapply (expr_vis (before ++ F) I vis HN' HC); eassumption.
          - destruct m as [|m]; [discriminate El|]. cbn in El. injection El as <-. apply incl_nil_l. }
        rewrite D. cbn [andb]. apply IHit; assumption.
  Qed.

  (** A declared type that is no tagged container. *)
  Lemma type_vis x args t calc flags cnd xs i fd m d : type_elab n p x args (AField t calc flags cnd xs) -> mget x (p_types p) = Some i -> fget p i = Some fd ->
    untagged (f_type fd) -> lower_decl chk p m fd = Some d -> dec_names_ok d = true.
  Proof.
    intros (i' & fd' & Ei & Ef & _ & _ & _ & _ & _ & El & Hc & Hx & _) Ei' Ef' U L. rewrite Ei in Ei'. injection Ei' as ->. rewrite Ef in Ef'. injection Ef' as ->.
    assert (HN : named []) by (intros ? ? []). assert (HC : covers [] []) by (intros ? ? ? []).
    unfold lower_decl in L. inv_o L. inv_o L. inv_o L. injection L as <-. unfold lower_attr in E. inv_o E. inv_o E. inv_o E. injection E as <-.
    unfold dec_names_ok. cbn [d_attr d_ty fa_cond fa_xs].
    rewrite (proj2 (subset_app _ _ _) (conj (proj2 (subset_in _ _) (opt_vis [] _ [] HN HC m _ _ _ Hc E3)) (proj2 (subset_in _ _) (xs_vis [] _ [] HN HC m _ _ _ Hx E4)))). cbn [andb].
    pose proof (elab_vis _ m [] [] _ _ _ _ HN HC El U E0) as D.
    assert (Tg : match a0 with TCont _ true _ => False | _ => True end).
    { destruct m as [|m]; [discriminate E0|]. destruct (f_type fd); cbn [lower_type] in E0; repeat (inv_o E0); try (injection E0 as <-); try exact Logic.I. cbn [untagged] in U. subst. exact Logic.I. }
    destruct a0 as [| | | | | | | | |len [] items]; try exact D. destruct Tg.
  Qed.
End Scope.
