(** The parser gives the first item of every enum and bitfield a value (C52): proofs. *)
From Verif Require Import Base Scalar Tokens Ast Parse Tame.
From Coq Require Import Lia.
Open Scope list_scope.

Section Heads.
  Variable FN : name -> nat -> Prop.
  Variable XF : nat -> Prop.
  Notation E := (e_tame FN XF). Notation T := (t_tame FN XF). Notation F := (f_tame FN XF).
  Definition Ge (e : aexpr) : Prop := E True e -> E False e.
  Definition Gt (t : atype) : Prop := T True t -> T False t.
  Definition Gf (f : afield) : Prop := F True f -> F False f.
  Definition Go (o : option aexpr) : Prop := match o with Some e => Ge e | None => True end.
  Definition Gv (v : aenum) : Prop := match v with VExpr e => Ge e | _ => True end.
  Definition Gi (i : aitem) : Prop := match i with IPad e => Ge e | IField _ f => Gf f end.
  Definition Gx (x : axform) : Prop := match x with AXform _ args c => Forall Ge args /\ Go c end.
  Definition Ga (a : targ) : Prop := Gt (ta_type a) /\ Go (ta_default a).
  Definition Gd (d : adecl) : Prop := d_tame FN XF True d -> d_tame FN XF False d.

  Lemma es_all args : Forall Ge args -> (fix all (l : list aexpr) : Prop := match l with [] => True | e :: l => E True e /\ all l end) args ->
    (fix all (l : list aexpr) : Prop := match l with [] => True | e :: l => E False e /\ all l end) args.
  Proof. induction 1 as [|e l H _ IH]; [auto|]. intros [A B]. split; [apply H, A|apply IH, B]. Qed.
  Lemma g_call f args : Forall Ge args -> Ge (ACall f args).
  Proof. intros H [A B]. split; [exact A|]. exact (es_all args H B). Qed.
  Lemma g_index a i : Ge a -> Ge i -> Ge (AIndex a i). Proof. intros _ _ []. Qed.
  Lemma g_member a m : Ge a -> Ge (AMember a m). Proof. intros H; exact H. Qed.
  Lemma g_un o a : Ge a -> Ge (AUn o a). Proof. intros H; exact H. Qed.
  Lemma g_bin o a b : Ge a -> Ge b -> Ge (ABin o a b). Proof. intros A B [X Y]; exact (conj (A X) (B Y)). Qed.
  Lemma g_cast a t : Ge a -> Gt t -> Ge (ACast a t). Proof. intros A B [X Y]; exact (conj (A X) (B Y)). Qed.
  Lemma g_tern a b c : Ge a -> Ge b -> Ge c -> Ge (ATern a b c). Proof. intros A B C (X & Y & Z); exact (conj (A X) (conj (B Y) (C Z))). Qed.
  Lemma g_ref x args : Forall Ge args -> Gt (YRef x args). Proof. intros H K. exact (es_all args H K). Qed.
  Lemma g_arr t x len : Gt t -> Go len -> Gt (YArr t x len).
  Proof. intros A B [X Y]. split; [exact (A X)|]. destruct len; [exact (B Y)|exact I]. Qed.
  Lemma g_cont len fl items : Go len -> Forall Gi items -> Gt (YCont len fl items).
  Proof.
    intros A B [X Y]. split; [destruct len; [exact (A X)|exact I]|]. clear X. revert Y. induction B as [|it l H _ IH]; [auto|].
    destruct it; intros [P Q]; (split; [apply H, P|apply IH, Q]).
  Qed.
  Definition hd_v (l : list (name * aenum)) : Prop := match l with (_, VNone) :: _ => False | _ => True end.
  Definition hd_b (l : list (name * option aexpr)) : Prop := match l with (_, None) :: _ => False | _ => True end.
  Lemma g_enum rep items : hd_v items -> Forall (fun x => Gv (snd x)) items -> Gt (YEnum rep items).
  Proof.
    intros A B [_ Y]. split; [destruct items as [|[x []]]; exact A|]. clear A. revert Y. induction B as [|[x v] l H _ IH]; [auto|].
    intros [P Q]. split; [|apply IH, Q]. destruct v; try exact I; apply H, P.
  Qed.
  Lemma g_bits rep items : hd_b items -> Forall (fun x => Go (snd x)) items -> Gt (YBits rep items).
  Proof.
    intros A B [_ Y]. split; [destruct items as [|[x []]]; exact A|]. clear A. revert Y. induction B as [|[x v] l H _ IH]; [auto|].
    intros [P Q]. split; [|apply IH, Q]. destruct v; try exact I; apply H, P.
  Qed.
  Lemma g_field t calc fl c xs : Gt t -> Go calc -> Go c -> Forall Gx xs -> Gf (AField t calc fl c xs).
  Proof.
    intros A B C D (X & Y & Z & W). split; [exact (A X)|]. split; [destruct calc; [exact (B Y)|exact I]|]. split; [destruct c; [exact (C Z)|exact I]|]. clear X Y Z A B C. revert W.
    induction D as [|[x args o] l [H1 H2] _ IH]; [auto|]. intros (P & Q & R & S). split; [exact P|]. split; [exact (es_all args H1 Q)|]. split; [destruct o; [exact (H2 R)|exact I]|]. apply IH, S.
  Qed.
  Lemma g_type n args f : Forall Ga args -> Gf f -> Gd (DType n args f).
  Proof.
    intros A B [X Y]. split; [|exact (B Y)]. clear Y B. induction A as [|a l [H1 H2] _ IH]; [constructor|]. inversion X as [|? ? [P Q] R]; subst. constructor; [|apply IH, R].
    split; [exact (H1 P)|]. destruct (ta_default a); [exact (H2 Q)|exact I].
  Qed.
  Lemma g_const n t v : Gt t -> Ge v -> Gd (DConst n t v). Proof. intros A B [X Y]. exact (conj (A X) (B Y)). Qed.

  (** What the function [s] is given, and what it returns. *)
  Definition given (s : sym) : Prop := match s with NBinL _ e | NCastL e | NPostL e => Ge e | NTypeL t => Gt t | _ => True end.
  Definition yields (s : sym) : out s -> Prop :=
    match s return out s -> Prop with
    | NExpr | NBin _ | NBinL _ _ | NCastL _ | NUn | NPost | NPostL _ | NPrim => Ge
    | NArgs => Forall Ge
    | NFlags | NImports => fun _ => True
    | NType | NTypeL _ => Gt
    | NEnum b => fun l => Forall (fun x => Gv (snd x)) l /\ (b = true -> hd_v l)
    | NBits b => fun l => Forall (fun x => Go (snd x)) l /\ (b = true -> hd_b l)
    | NItems => Forall Gi
    | NField => Gf
    | NXforms => Forall Gx
    | NTArgs => Forall Ga
    | NDecl => Gd
    | NProgram => Forall Gd
    end.
  Definition post {A} (P : A -> Prop) (r : pres A) : Prop := match r with Ok (x, _) => P x | _ => True end.
  Lemma post_rec {A B} (P : A -> Prop) (Q : B -> Prop) (r : pres A) (k : A * list token -> pres B) :
    post P r -> (forall x ts, P x -> post Q (k (x, ts))) -> post Q (bind r k).
  Proof. destruct r as [[x ts]| | |]; cbn; auto. Qed.
  Lemma post_any {A B} (Q : B -> Prop) (r : res perr A) (k : A -> pres B) : (forall x, post Q (k x)) -> post Q (bind r k).
  Proof. destruct r; cbn; auto. Qed.
  Lemma post_bad {A} (Q : A -> Prop) ts : post Q (unexpected ts). Proof. destruct ts; exact I. Qed.

  Section Body.
    Variable rec : recs.
    Hypothesis IH : forall s ts, given s -> post (yields s) (rec s ts).
    Definition IHe s ts (G : given s) := IH s ts G.
    Ltac go :=
      repeat (cbn beta iota zeta; match goal with
      | H : _ /\ _ |- _ => destruct H
      | p : (_ * _)%type |- _ => destruct p
      | |- post _ (Err _) => exact I
      | |- post _ (unexpected _) => apply post_bad
      | |- post _ (bind (rec ?s ?ts) _) => apply (post_rec (yields s)); [apply IH; cbn [given]; auto|cbn [yields]; intros ? ? ?]
      | |- post _ (bind (Ok _) _) => cbn [bind]
      | |- post _ (bind (Err _) _) => exact I
      | |- post _ (bind (bind _ _) _) => fail 1
      | |- post _ (bind (match _ with _ => _ end) _) => fail 1
      | |- post _ (bind (expect _ _) _) => apply post_any; intros ?
      | |- post _ (bind (expectk _ _) _) => apply post_any; intros ?
      | |- post _ (bind (expect_ident _) _) => apply post_any; intros ?
      | |- post _ (bind (expect_string _) _) => apply post_any; intros ?
      | |- post _ (bind (peek_token _ _) _) => apply post_any; intros ?
      | |- post _ (bind (peek_kw _ _) _) => apply post_any; intros ?
      | |- post ?P (rec ?s ?ts) => apply (IH s ts); cbn [given]; auto
      | |- post _ (match ?b with _ => _ end) => destruct b
      | |- post _ (Ok (_, _)) => cbn [post]
      end).
    Lemma args_post ts : post (Forall Ge) (p_arguments rec ts).
    Proof. unfold p_arguments. destruct (eat PLeftParen ts); [apply (IH NArgs); exact I|constructor]. Qed.
    Lemma cond_post ts : post Go (p_cond rec ts).
    Proof. unfold p_cond. go; first [assumption|exact I]. Qed.
    Lemma calc_post ts : post Go (p_calc rec ts).
    Proof. unfold p_calc. go; first [assumption|exact I]. Qed.
    Lemma len_post ts : post (fun x => Go (snd x)) (p_len rec ts).
    Proof.
      unfold p_len. destruct (match eat PDotDot ts with Some _ => _ | None => _ end) as [start ts']. apply post_any. intros close.
      apply (post_rec Go). { destruct close; [exact I|]. go. assumption. }
      intros x t H. destruct start, x; try exact I; exact H.
    Qed.
    Lemma container_post ts : post Gt (p_container rec ts).
    Proof.
      unfold p_container. apply post_any. intros t. apply (post_rec Go). { destruct (eat PLeftSquare t); go; first [assumption|exact I]. }
      intros len t' H. go. apply g_cont; assumption.
    Qed.
    Lemma value_post b ts : post (fun v => Gv v /\ (b = true -> v <> VNone)) (p_enum_value rec b ts).
    Proof.
      unfold p_enum_value. apply (post_rec (fun h => b = true -> h = true)). { destruct b; go; auto; discriminate. }
      intros h t H. destruct h; [|cbn; split; [exact I|intros B; discriminate (H B)]]. go; split; first [exact I|assumption|intros _; discriminate].
    Qed.
    Lemma enum_post ts : post Gt (p_enum rec ts).
    Proof. unfold p_enum. go. apply g_enum; auto. Qed.
    Lemma bits_post ts : post Gt (p_bits rec ts).
    Proof. unfold p_bits. go. apply g_bits; auto. Qed.
    Lemma raw_post ts : post Gt (p_raw rec ts).
    Proof.
      assert (Q : forall x t, post Gt (let! (args, ts) := p_arguments rec t in Ok (YRef x args, ts))).
      { intros x t. eapply post_rec; [apply args_post|]. intros args t' H. apply g_ref, H. }
      assert (K : forall t r, post Gt (match parse_scalar (t :: r) with Some (s, ts) => Ok (YScalar s, ts) | None =>
          match t with TKw KF32 => Ok (YF32, r) | TKw KF64 => Ok (YF64, r) | TKw KBool => Ok (YBool, r) | TIdent n => let! (args, ts) := p_arguments rec r in Ok (YRef n args, ts) | _ => Err (PUnexpected t) end end)).
      { intros t r. destruct (parse_scalar (t :: r)) as [[s ts']|]; [intros H; exact H|]. destruct t as [x| | | | | |k]; try exact I; [apply Q|]. destruct k; try exact I; intros H; exact H. }
      destruct ts as [|t r]; [exact I|]. pose proof (K t r) as Kt. destruct t as [x| | | | | |k]; try exact Kt. destruct k; first [exact Kt|apply container_post|apply enum_post|apply bits_post].
    Qed.
    Lemma fold_un ops e : Ge e -> Ge (fold_left (fun e o => AUn o e) ops e).
    Proof. revert e. induction ops as [|o l H]; intros e G; [exact G|]. apply H, g_un, G. Qed.
    Ltac fin := first [assumption|exact I|apply g_index; assumption|apply g_bin; assumption|apply g_cast; assumption|apply g_tern; assumption].
    Lemma body_post s ts : given s -> post (yields s) (body rec s ts).
    Proof.
      intros G. destruct s; cbn [body yields given] in *.
      - unfold p_expr. go; fin.
      - unfold p_bin. go; assumption.
      - unfold p_bin_loop. go; fin.
      - unfold p_cast_loop. go; fin.
      - unfold p_un. go. apply fold_un. assumption.
      - unfold p_post. go; assumption.
      - unfold p_post_loop. go; fin.
      - assert (A : forall x t, post Ge (let! (args, ts) := p_arguments rec t in Ok (ACall x args, ts))).
        { intros x t. eapply post_rec; [apply args_post|]. intros args t' H. apply g_call, H. }
        assert (L : forall e : aexpr, match e with AInt _ _ | AStr _ | ABool _ | ARef _ | AEnumAccess _ _ => True | _ => False end -> Ge e) by (intros []; intros K H; try destruct K; exact H).
        unfold p_prim. destruct ts as [|t ts]; [exact I|]. destruct t as [x|s|v| | |o|k].
        all: try destruct o; try destruct k; try exact I; go; try (apply A); try (apply L; exact I); try assumption.
      - unfold p_args. go; repeat constructor; assumption.
      - unfold p_flags. go; exact I.
      - unfold p_type. eapply post_rec; [apply raw_post|]. intros t r H. apply (IH (NTypeL t)). exact H.
      - unfold p_type_loop. destruct (eat PLeftSquare ts) as [r|]; [|exact G]. eapply post_rec; [apply len_post|]. intros [x len] r' H. cbn [snd] in H. apply post_any. intros r2. exact (IH (NTypeL (YArr t x len)) r2 (g_arr t x len G H)).
      - unfold p_enum_loop. apply post_any. intros [x r]. eapply post_rec; [apply value_post|]. intros v r' [H1 H2].
        assert (N : forall l, first = true -> hd_v ((x, v) :: l)) by (intros l Hf; destruct v; try exact I; exact (H2 Hf eq_refl)).
        go; split; try (apply N); repeat constructor; assumption.
      - unfold p_bits_loop. apply post_any. intros [x r]. apply (post_rec (fun v => Go v /\ (first = true -> v <> None))). { destruct first; go; split; first [exact I|assumption|intros _; discriminate|discriminate]. }
        intros v r' [H1 H2]. assert (N : forall l, first = true -> hd_b ((x, v) :: l)) by (intros l Hf; destruct v; try exact I; exact (H2 Hf eq_refl)).
        go; split; try (apply N); repeat constructor; assumption.
      - unfold p_items. apply post_any. intros close. destruct close; [constructor|]. apply (post_rec Gi). { go; assumption. }
        intros i r H. go; repeat constructor; assumption.
      - unfold p_field. apply (post_rec Gt); [apply (IH NType); exact I|]. intros t r H. eapply post_rec; [apply calc_post|]. intros c r1 H1. apply (post_rec (fun _ => True)); [apply (IH NFlags); exact I|]. intros fl r2 _.
        eapply post_rec; [apply cond_post|]. intros c2 r3 H3. go. apply g_field; assumption.
      - unfold Parse.p_xforms. destruct (eat PArrow ts); [|constructor]. apply post_any. intros [x r]. eapply post_rec; [apply args_post|]. intros args r1 H1. eapply post_rec; [apply cond_post|]. intros c r2 H2. go.
        constructor; [split; assumption|assumption].
      - unfold p_targs. destruct (eat PRightParen ts); [constructor|]. apply post_any. intros [x r]. apply post_any. intros r1. apply (post_rec Gt); [apply (IH NType); exact I|]. intros t r2 H.
        apply (post_rec Go). { go; first [assumption|exact I]. } intros d r3 H3. go; repeat constructor; assumption.
      - unfold p_imports. apply post_any. intros [x r]. apply (post_rec (fun _ => True)). { go; exact I. } intros a r1 _. go; exact I.
      - unfold p_decl. apply (post_rec Gd). 2: { intros d r H. go. assumption. }
        assert (TD : post Gd (p_type_decl rec ts)).
        { unfold p_type_decl. apply post_any. intros r. apply post_any. intros [x r1]. apply (post_rec (Forall Ga)). { destruct (eat PLeftParen r1); [apply (IH NTArgs); exact I|constructor]. }
          intros args r2 H. go. apply g_type; assumption. }
        assert (ID : post Gd (p_import_decl rec ts)) by (unfold p_import_decl; go; intros K; exact K).
        assert (FD : post Gd (p_ffi_decl ts)) by (unfold p_ffi_decl; go; intros K; exact K).
        assert (CD : post Gd (p_const_decl rec ts)) by (unfold p_const_decl; go; apply g_const; assumption).
        destruct ts as [|t r]; [exact I|]. destruct t as [x| | | | | |k]; try exact I. destruct k; try exact I; assumption.
      - unfold p_program. destruct ts as [|t r]; [constructor|]. go. constructor; assumption.
    Qed.
  End Body.
  Lemma parser_post : forall n s ts, given s -> post (yields s) (parser n s ts).
  Proof. induction n as [|n IH]; intros s ts G; [exact I|]. exact (body_post (parser n) IH s ts G). Qed.
  Lemma parse_heads text a : parse text = Ok a -> tame FN XF True a -> tame FN XF False a.
  Proof.
    unfold parse. destruct (tokenize text) as [ts| | |]; cbn [bind]; try discriminate. unfold parse_tokens.
    match goal with |- bind (parser ?n ?s ?t) _ = _ -> _ => pose proof (parser_post n s t I) as H; destruct (parser n s t) as [[x y]| | |] end; cbn [bind]; try discriminate.
    intros E0 K. apply Ok_inj in E0. subst. cbn [post yields] in H. revert K. unfold tame. induction H as [|d l G _ IH]; [auto|]. intros K. inversion K; subst. constructor; auto.
  Qed.
End Heads.
Lemma parsed_headed rs text a : parse text = Ok a -> tame_program rs a -> headed_program rs a.
Proof. apply parse_heads. Qed.
