(** The analysis does not crash on tame programs (C52): proofs. *)
From Verif Require Import Base Scalar ConstInt Tokens Ast Parse Front Program FrontFacts ElabSpec ElabFacts ElabTypes Tame Heads.
From Coq Require Import Lia.
Open Scope list_scope.

Definition safe {A} (P : A -> Prop) (r : R A) : Prop := match r with Ok x => P x | Err _ | Hang => True | Panic => False end.
Lemma safe_bind {A B} (P : A -> Prop) (Q : B -> Prop) r k : safe P r -> (forall x, P x -> safe Q (k x)) -> safe Q (bind r k).
Proof. destruct r; cbn; auto. Qed.
Lemma safe_mono {A} (P Q : A -> Prop) r : (forall x, P x -> Q x) -> safe P r -> safe Q r.
Proof. destruct r; cbn; auto. Qed.

(** ** Types that only refer to stored fields *)
Fixpoint wft (L : nat) (t : fty) : Prop :=
  match t with
  | FRef i _ => (i < L)%nat
  | FArr el _ _ => wft L el
  | FCont _ items _ => Forall (fun x : name * nat => (snd x < L)%nat) items
  | _ => True
  end.
Lemma wft_mono L L' t : (L <= L')%nat -> wft L t -> wft L' t.
Proof. intros H. induction t; cbn; auto; try lia. intros K. eapply Forall_impl; [|exact K]. cbn. intros. lia. Qed.
Lemma simple_wft L t : simple_type t -> wft L t.
Proof. destruct t; cbn; try tauto. destruct t; cbn; tauto. Qed.
Definition fwf (L : nat) (f : field) : Prop := wft L (f_type f) /\ Forall (fun q => wft L (pm_type q)) (f_params f).
Definition swf (s : list field) : Prop := forall i f, nth_error s i = Some f -> fwf (List.length s) f.
Fixpoint wfx (L : nat) (x : ptype) : Prop := match x with PType t => wft L t | PArray (Some x) => wfx L x | _ => True end.

Section Prog.
  Variable en : env.
  Variable rs : resolver.
  Hypothesis RS : sound_resolver rs.
  Notation FN := (fn_few rs). Notation XF := (xf_few rs).
  Definition fun_ok (f : name) (fn : func) : Prop := simple_type (fn_ret fn) /\ Forall fparam_basic (fn_params fn) /\ forall k, FN f k -> few (fn_params fn) k.
  Definition xf_ok (ps : list fparam) : Prop := Forall fparam_basic ps /\ forall k, XF k -> few ps k.
  (** The tables of a program whose store has [L] fields. *)
  Record twf (L : nat) (p : prog) : Prop := {
    tw_all : Forall (fun x : name * nat => (snd x < L)%nat) (p_types p);
    tw_consts : forall x c, mget x (p_consts p) = Some c -> wft L (c_type c);
    tw_xforms : forall x ps, mget x (p_xforms p) = Some ps -> xf_ok ps;
    tw_funcs : forall x f, mget x (p_funcs p) = Some f -> fun_ok x f }.
  Lemma mget_forall {A} (P : name * A -> Prop) m : Forall P m -> forall x v, mget x m = Some v -> exists k, P (k, v).
  Proof. induction 1 as [|[k u] m H _ IH]; cbn; [discriminate|]. intros x v. destruct (name_eqb x k); [intros E; injection E as <-; eauto|apply IH]. Qed.
  Lemma tw_types L p : twf L p -> forall x i, mget x (p_types p) = Some i -> (i < L)%nat.
  Proof. intros W x i E. destruct (mget_forall _ _ (tw_all _ _ W) x i E) as [k H]. exact H. Qed.
  Definition pwf (p : prog) : Prop := swf (p_store p) /\ twf (size p) p.
  Lemma twf_mono L L' p : (L <= L')%nat -> twf L p -> twf L' p.
  Proof. intros H [A B C D]. constructor; eauto using wft_mono. eapply Forall_impl; [|exact A]. cbn. lia. Qed.
  Lemma twf_tables L p p' : tables p p' -> twf L p -> twf L p'.
  Proof. intros [A B C D] [A' B' C' D']. constructor; rewrite ?A, ?B, ?C, ?D; assumption. Qed.

  Lemma get_some p i : (i < size p)%nat -> exists f, fget p i = Some f.
  Proof. intros H. unfold fget. destruct (nth_error (p_store p) i) eqn:E; [eauto|]. apply nth_error_None in E. lia. Qed.

  Section Rd.
    Variable n : nat.
    Variable p : prog.
    Hypothesis W : pwf p.
    Notation L := (size p).
    Lemma get_ok i : (i < L)%nat -> exists f, fget p i = Some f /\ fwf L f.
    Proof. intros H. destruct (get_some p i H) as [f E]. exists f. split; [exact E|]. exact (proj1 W i f E). Qed.

    Lemma resolved_safe k : forall t, wft L t -> safe (wft L) (resolved k p t).
    Proof.
      induction k as [|k IH]; intros t H; destruct t; cbn [resolved]; try exact I; try exact H.
      destruct (get_ok _ H) as (f & -> & [T _]). apply IH, T.
    Qed.
    Lemma allR_safe {A} (f : A -> R bool) l : Forall (fun x => safe (fun _ => True) (f x)) l -> safe (fun _ => True) (allR f l).
    Proof. induction 1 as [|x l H _ IH]; cbn; [exact I|]. eapply safe_bind; [exact H|]. intros [|] _; [exact IH|exact I]. Qed.
    Lemma assign_safe k : forall a b, wft L a -> wft L b -> safe (fun _ => True) (assign en k p a b).
    Proof.
      induction k as [|k IH]; intros t1 t2 H1 H2; [exact I|]. cbn [assign]. eapply safe_bind; [apply resolved_safe, H1|]. intros a A.
      eapply safe_bind; [apply resolved_safe, H2|]. intros b B.
      assert (Fo : forall o, safe (fun _ => True) (match o with
          | FoVar s => assign en k p a (FScalar (be s))
          | FoArr s => match a with FArr el _ _ => assign en k p (FScalar (be s)) el | _ => Ok false end
          | FoUser _ to => Ok (to a) end)).
      { intros [s|s|fr to]; [apply IH; [exact A|exact I]| |exact I]. destruct a; try exact I. apply IH; [exact I|exact A]. }
      assert (Fr : forall o, safe (fun _ => True) (match o with
          | FoVar s => assign en k p (FScalar (be s)) b
          | FoArr s => match b with FArr el _ _ => assign en k p (FScalar (be s)) el | _ => Ok false end
          | FoUser from _ => Ok (from b) end)).
      { intros [s|s|fr to]; [apply IH; [exact I|exact B]| |exact I]. destruct b; try exact I. apply IH; [exact I|exact B]. }
      destruct a, b; try exact I; try apply Fo; try apply Fr.
      - eapply safe_bind; [apply IH; [exact A|exact B]|]. intros; exact I.
      - destruct (opt_eqb en len len0 && _); [|exact I]. eapply safe_bind with (P := fun _ => True); [|intros; exact I]. apply allR_safe.
        apply Forall_forall. intros [x i] In. cbn [fst snd]. destruct (mget x items0) as [j|] eqn:E; [|exact I].
        cbn [wft] in A, B. rewrite Forall_forall in A, B. pose proof (A _ In) as Ai. cbn in Ai.
        assert (Bj : (j < L)%nat). { clear - B E. induction items0 as [|[y j'] l IHl]; [discriminate|]. cbn in E. destruct (name_eqb x y).
          - injection E as ->. exact (B (y, j) (or_introl eq_refl)). - apply IHl; [intros z Hz; apply B; right; exact Hz|exact E]. }
        destruct (get_ok _ Ai) as (f1 & -> & [F1 _]). destruct (get_ok _ Bj) as (f2 & -> & [F2 _]). destruct (name_eqb _ _); [|exact I]. apply IH; assumption.
    Qed.
    Lemma coerce_safe k a b : wft L a -> wft L b -> safe (fun _ => True) (coerce k p a b).
    Proof. intros A B. unfold coerce. eapply safe_bind; [apply resolved_safe, A|]. intros. eapply safe_bind; [apply resolved_safe, B|]. intros. exact I. Qed.
    Lemma castable_safe k a b : wft L a -> wft L b -> safe (fun _ => True) (castable en k p a b).
    Proof.
      intros A B. unfold castable. eapply safe_bind; [apply assign_safe; assumption|]. intros [|] _; [exact I|]. eapply safe_bind; [apply coerce_safe; assumption|]. intros [|] _; [exact I|].
      eapply safe_bind; [apply resolved_safe, A|]. intros. eapply safe_bind; [apply resolved_safe, B|]. intros. exact I.
    Qed.
    Lemma into_partial_safe k : forall t, wft L t -> safe (wfx L) (into_partial k p t).
    Proof.
      induction k as [|k IH]; intros t H; [exact I|]. destruct t; cbn [into_partial]; try exact I; try exact H.
      - destruct (get_ok _ H) as (f & -> & [T _]). apply IH, T.
      - eapply safe_bind; [apply IH, H|]. intros x X. exact X.
    Qed.
    Lemma obj_safe k o x : wfx L x -> safe (fun _ => True) (obj_to_partial en k p o x).
    Proof.
      intros X. unfold obj_to_partial. destruct o, x as [t|[s0|s0|]|o|]; try exact I; try (apply assign_safe; assumption || exact I); try (destruct t; exact I).
      destruct t; try exact I. apply assign_safe; [exact I|exact X].
    Qed.
    Lemma passign_safe k : forall x, wfx L x -> forall t, wft L t -> safe (fun _ => True) (passign en k p x t).
    Proof.
      assert (Arr : forall o t, match o with Some x => forall t, wft L t -> safe (fun _ => True) (passign en k p x t) | None => True end -> wfx L (PArray o) -> wft L t -> safe (fun _ => True) (passign en k p (PArray o) t)).
      { intros o t IH X T. destruct o as [x|]; cbn [passign]; (eapply safe_bind; [apply resolved_safe, T|]); intros t' T'; destruct t'; try exact I; try (apply obj_safe; exact X). apply IH, T'. }
      fix IH 1. intros x0 X t T. destruct x0 as [u|s|o|].
      - cbn [passign]. eapply safe_bind; [apply resolved_safe, T|]. intros t' T'. destruct t'; try (apply assign_safe; assumption). apply obj_safe, X.
      - cbn [passign]. eapply safe_bind; [apply resolved_safe, T|]. intros t' T'. destruct s, t'; try exact I; try (apply assign_safe; [exact I|exact T']); apply obj_safe; exact I.
      - apply Arr; [|exact X|exact T]. destruct o as [x|]; [|exact I]. intros t' T'. apply IH; [exact X|exact T'].
      - cbn [passign]. eapply safe_bind; [apply resolved_safe, T|]. intros t' T'. destruct t'; try exact I. apply obj_safe; exact I.
    Qed.
    Lemma pcoerce_safe k x t : wfx L x -> wft L t -> safe (fun _ => True) (pcoerce k p x t).
    Proof.
      intros X T. unfold pcoerce. eapply safe_bind; [apply resolved_safe, T|]. intros t' T'. destruct x as [u|[s|s|]|o|]; try exact I; try (apply coerce_safe; assumption).
      - destruct t'; try (apply coerce_safe; [exact T'|exact I]). destruct (can_implicit_cast_to _ _); [exact I|apply coerce_safe; exact I].
      - destruct t'; try (apply coerce_safe; [exact T'|exact I]). destruct (can_implicit_cast_to _ _); [exact I|apply coerce_safe; exact I].
    Qed.

    (** An expression with a known type. *)
    Definition typed (e : fexpr) : Prop := exists t, get_type n p e = Ok (Some t) /\ wft L t.
    Lemma into_type_wf x u : wfx L x -> into_type x = Some u -> wft L u.
    Proof. destruct x as [t|[s|s|]|o|]; cbn; intros H E; try discriminate; injection E as <-; auto; exact I. Qed.
    Lemma fit_safe e x : typed e -> wfx L x -> safe typed (fit en n p e x).
    Proof.
      intros T X. pose proof T as (t & E & Tw). unfold fit. rewrite E. cbn [bind]. eapply safe_bind; [apply passign_safe; assumption|]. intros [|] _; [exact T|].
      eapply safe_bind; [apply pcoerce_safe; assumption|]. intros [|] _; [|exact I]. destruct (into_type x) as [u|] eqn:U; [|exact I].
      exists u. split; [reflexivity|exact (into_type_wf x u X U)].
    Qed.
    (** [Hang] in a type computation. *)
    Lemma typed_safe e : typed e -> safe (fun o => exists t, o = Some t /\ wft L t) (get_type n p e).
    Proof. intros (t & E & T). rewrite E. cbn. eauto. Qed.

    Definition scw (sc : scope) : Prop := (forall x i, resolve_field sc x = Some i -> (i < L)%nat) /\ (forall x t, resolve_input sc x = Some t -> wft L t).
    Lemma ffi_safe k ps : few ps k -> safe (fun _ => True) (ffi_check k ps).
    Proof.
      intros F. unfold ffi_check, ffi_required. fold (required ps). destruct F as [F|F].
      - assert ((List.length (required ps) <? k)%nat = false) as -> by (apply Nat.ltb_ge; exact F). cbn [andb]. destruct (_ || _); exact I.
      - assert (existsb (fun q => negb (fp_optional q)) (last_n (List.length (required ps)) ps) = false) as ->.
        { clear - F. induction F as [|q l H _ IH]; cbn; [reflexivity|]. rewrite H. exact IH. }
        rewrite Bool.andb_false_r. destruct (_ || _); exact I.
    Qed.
    Lemma fparam_wft q : fparam_basic q -> safe (wfx L) (match fp_type q with Some t => into_partial n p t | None => Ok PAny end).
    Proof. unfold fparam_basic. destruct (fp_type q); intros B; [|exact I]. apply into_partial_safe, simple_wft, B. Qed.
    Lemma init_wf o x : wfx L x -> wfx L (init_expected o x).
    Proof. destruct o; cbn; auto. Qed.

    Definition inl_ok (t : atype) (u : purpose) : Prop :=
      match t, u with YCont _ _ _, ForArray => True | YCont _ _ _, _ => False | (YEnum _ _ | YBits _ _), ForType _ => False | _, _ => True end.
    Definition Pe (e : aexpr) : Prop := e_tame FN XF False e -> forall sc x, scw sc -> wfx L x -> safe typed (cexpr en n p sc e x).
    Definition Pt (t : atype) : Prop := t_tame FN XF False t -> forall sc u, scw sc -> inl_ok t u -> safe (wft L) (cinl en n p sc t u).

    Lemma args_safe sc : scw sc -> forall args, Forall Pe args ->
      (fix all (l : list aexpr) : Prop := match l with [] => True | e :: l => e_tame FN XF False e /\ all l end) args ->
      forall ps, Forall fparam_basic ps -> safe (fun _ => True) ((fix go (l : list aexpr) (ps : list fparam) {struct l} : R (list fexpr) :=
                 match l, ps with
                 | e :: l, q :: ps =>
                     let! xt := match fp_type q with Some t => into_partial n p t | None => Ok PAny end in
                     let! e' := cexpr en n p sc e xt in let! r := go l ps in Ok (e' :: r)
                 | _, _ => Ok []
                 end) args ps).
    Proof.
      intros S. induction 1 as [|e l H _ IH]; intros T ps B; [exact I|]. destruct ps as [|q ps]; [exact I|]. apply Forall_inv in B as B1. apply Forall_inv_tail in B as B2.
      destruct T as [T1 T2]. eapply safe_bind; [apply fparam_wft, B1|]. intros xt X. eapply safe_bind; [apply H; assumption|]. intros e' _.
      eapply safe_bind; [apply IH; assumption|]. intros; exact I.
    Qed.
    Lemma targs_safe sc : scw sc -> forall args, Forall Pe args ->
      (fix all (l : list aexpr) : Prop := match l with [] => True | e :: l => e_tame FN XF False e /\ all l end) args ->
      forall ps, Forall (fun q => wft L (pm_type q)) ps -> safe (fun _ => True) ((fix go (l : list aexpr) (ps : list param) {struct l} : R (list fexpr) :=
                   match l, ps with
                   | e :: l, q :: ps =>
                       let! xt := into_partial n p (pm_type q) in
                       let! e' := cexpr en n p sc e xt in let! r := go l ps in Ok (e' :: r)
                   | _, _ => Ok []
                   end) args ps).
    Proof.
      intros S. induction 1 as [|e l H _ IH]; intros T ps B; [exact I|]. destruct ps as [|q ps]; [exact I|]. apply Forall_inv in B as B1. apply Forall_inv_tail in B as B2.
      destruct T as [T1 T2]. eapply safe_bind; [apply into_partial_safe, B1|]. intros xt X. eapply safe_bind; [apply H; assumption|]. intros e' _.
      eapply safe_bind; [apply IH; assumption|]. intros; exact I.
    Qed.

    Lemma exprs_safe : (forall e, Pe e) /\ (forall t, Pt t) /\ (forall f : afield, True).
    Proof.
      apply syntax_ind; unfold Pe, Pt; try (intros; exact I).
      - (* int *) intros v ty _ sc x S X. cbn [cexpr]. eapply safe_bind with (P := typed); [|intros e' T; apply fit_safe; assumption].
        eapply safe_bind with (P := fun _ => True). { destruct ty as [s|]; [exact I|]. destruct x as [t|[s|s|]|o|]; exact I. }
        intros ty' _. destruct (ci_parse ty' v); [|exact I]. eexists; split; [reflexivity|exact I].
      - intros s _ sc x S X. cbn [cexpr bind]. apply fit_safe; [|exact X]. eexists; split; [reflexivity|exact I].
      - intros b _ sc x S X. cbn [cexpr bind]. apply fit_safe; [|exact X]. eexists; split; [reflexivity|exact I].
      - (* variable *) intros v _ sc x S X. cbn [cexpr]. eapply safe_bind with (P := typed); [|intros e' T; apply fit_safe; assumption].
        destruct (resolve_field sc v) as [i|] eqn:E.
        { destruct (get_ok i (proj1 S v i E)) as (f & G & [Tf _]). cbn. exists (f_type f). cbn [get_type]. rewrite G. auto. }
        destruct (resolve_input sc v) as [t|] eqn:E'. { exists t. split; [reflexivity|exact (proj2 S v t E')]. }
        destruct (mget v (p_consts p)) as [c|] eqn:E''; [|exact I]. exists (c_type c). split; [reflexivity|exact (tw_consts _ _ (proj2 W) v c E'')].
      - (* access *) intros tn v _ sc x S X. cbn [cexpr]. eapply safe_bind with (P := typed); [|intros e' T; apply fit_safe; assumption].
        destruct (mget tn (p_types p)) as [i|] eqn:E; [|exact I]. destruct (get_ok i (tw_types _ _ (proj2 W) tn i E)) as (f & G & [Tf _]). rewrite G.
        destruct (f_type f) eqn:Ft; try exact I; (destruct (mget v items) as [[c|]|] || destruct (mget v items) as [c|]); try exact I;
          (exists (f_type f); cbn [get_type]; rewrite G; split; [reflexivity|exact I || (rewrite Ft; exact I)]).
      - (* call *) intros f args IH [Tf T] sc x S X. cbn [cexpr]. eapply safe_bind with (P := typed); [|intros e' Te; apply fit_safe; assumption].
        destruct (mget f (p_funcs p)) as [fn|] eqn:E; [|exact I]. destruct (tw_funcs _ _ (proj2 W) f fn E) as (Br & Bp & Bk).
        eapply safe_bind; [apply ffi_safe, Bk, Tf|]. intros _ _. eapply safe_bind; [apply args_safe; assumption|]. intros args' _.
        exists (fn_ret fn). cbn [get_type]. rewrite E. split; [reflexivity|apply simple_wft, Br].
      - intros a i _ _ [].
      - (* member *) intros e m IH T sc x S X. cbn [cexpr]. eapply safe_bind with (P := typed); [|intros e' Te; apply fit_safe; assumption].
        eapply safe_bind; [apply (IH T sc PAny S I)|]. intros e' Te. pose proof Te as (t & G & Tw). rewrite G. cbn [bind].
        pose proof (resolved_safe n t Tw) as Rs. destruct (resolved n p t) as [t'| | |] eqn:Er; cbn [bind]; try exact I; [|exact Rs].
        destruct t'; try exact I. destruct (mget m items) as [c|]; [|exact I]. exists FBool. cbn [get_type]. rewrite G. cbn [bind]. rewrite Er. split; [reflexivity|exact I].
      - (* unary *) intros o e IH T sc x S X. cbn [cexpr]. eapply safe_bind with (P := typed); [|intros e' Te; apply fit_safe; assumption].
        eapply safe_bind; [apply (IH T sc x S X)|]. intros e' Te.
        assert (Tu : forall o, typed (FUn o e')) by (intros o'; destruct Te as (t & G & Tw); exists t; split; [exact G|exact Tw]).
        assert (Hn : forall (k : option fty -> R fexpr), (forall t, wft L t -> safe typed (k (Some t))) -> safe typed (let! t := get_type n p e' in k t)).
        { intros k K. destruct Te as (t & G & Tw). rewrite G. cbn [bind]. apply K, Tw. }
        destruct o.
        + apply Hn. intros t Tw. eapply safe_bind; [apply passign_safe; [exact I|exact Tw]|]. intros [|] _; cbn [negb]; [|exact I]. destruct t; try apply Tu. destruct (is_signed _); [apply Tu|exact I].
        + eapply safe_bind; [apply passign_safe; [exact X|exact I]|]. intros [|] _; [apply Tu|exact I].
        + apply Hn. intros t Tw. eapply safe_bind; [apply passign_safe; [exact I|exact Tw]|]. intros [|] _; cbn [negb]; [|exact I]. apply Tu.
      - (* cast *) intros e t IHe IHt [Te Tt] sc x S X. cbn [cexpr]. eapply safe_bind with (P := typed); [|intros e' Te'; apply fit_safe; assumption].
        assert (C : inl_ok t ForExpr -> safe typed (let! t' := cinl en n p sc t ForExpr in let! e' := cexpr en n p sc e PAny in let! ty := get_type n p e' in
              match ty with Some ty => let! k := castable en n p ty t' in if k then Ok (FCast e' t') else Err XIllegalCast | None => Err XUninferred end)).
        { intros Hi. eapply safe_bind; [apply (IHt Tt sc ForExpr S Hi)|]. intros t' Tw. eapply safe_bind; [apply (IHe Te sc PAny S I)|]. intros e' (ty & G & Ty). rewrite G. cbn [bind].
          eapply safe_bind; [apply castable_safe; assumption|]. intros [|] _; [|exact I]. exists t'. split; [reflexivity|exact Tw]. }
        destruct t; try exact I; apply C; exact I.
      - (* binary *) intros o a b IHa IHb [Ta Tb] sc x S X. cbn [cexpr]. eapply safe_bind with (P := typed); [|intros e' Te'; apply fit_safe; assumption].
        eapply safe_bind with (P := fun _ => True). { destruct (is_bool_op o); [apply passign_safe; [exact X|exact I]|exact I]. }
        intros [|] _; cbn [negb]; [|exact I].
        assert (Bt : forall l r, typed l -> typed (FBin o l r)).
        { intros l r (t & G & Tw). unfold typed. cbn [get_type]. destruct (is_bool_op o); [exists FBool; split; [reflexivity|exact I]|]. rewrite G. exists t. split; [reflexivity|exact Tw]. }
        pose proof (IHa Ta sc (init_expected o x) S (init_wf o x X)) as A. destruct (cexpr en n p sc a (init_expected o x)) as [l'|e| |]; try exact A.
        + destruct A as (t & G & Tw). rewrite G. cbn [bind]. eapply safe_bind; [apply into_partial_safe, Tw|]. intros xt Xt. eapply safe_bind; [apply (IHb Tb sc xt S Xt)|].
          intros r' _. apply Bt. exists t. split; [exact G|exact Tw].
        + eapply safe_bind; [apply (IHb Tb sc _ S (init_wf o x X))|]. intros r' Tr. pose proof Tr as (t & G & Tw). rewrite G. cbn [bind].
          eapply safe_bind; [apply into_partial_safe, Tw|]. intros xt Xt. eapply safe_bind; [apply (IHa Ta sc xt S Xt)|]. intros l' Tl. apply Bt, Tl.
      - (* ternary *) intros c a b IHc IHa IHb (Tc & Ta & Tb) sc x S X. cbn [cexpr]. eapply safe_bind with (P := typed); [|intros e' Te'; apply fit_safe; assumption].
        eapply safe_bind; [apply (IHc Tc sc (PType FBool) S I)|]. intros c' _. eapply safe_bind; [apply (IHa Ta sc x S X)|]. intros a' Tya.
        eapply safe_bind with (P := wfx L). { destruct x; try exact X. destruct Tya as (t & G & Tw). rewrite G. cbn [bind]. apply into_partial_safe, Tw. }
        intros xt Xt. eapply safe_bind; [apply (IHb Tb sc xt S Xt)|]. intros b' _. destruct Tya as (t & G & Tw). exists t. cbn [get_type]. rewrite G. split; [reflexivity|exact Tw].
      - (* reference *) intros tn args IH T sc u S _. cbn [cinl]. destruct (mget tn (p_types p)) as [i|] eqn:E; [|exact I].
        pose proof (tw_types _ _ (proj2 W) tn i E) as Hi. destruct (get_ok i Hi) as (f & G & [_ Fp]). rewrite G.
        eapply safe_bind with (P := fun _ => True). { unfold type_check. destruct (_ && _); [exact I|]. destruct (_ || _); exact I. }
        intros _ _. eapply safe_bind; [apply targs_safe; assumption|]. intros args' _. exact Hi.
      - intros rep items _ _ sc u S H. cbn [cinl]. destruct u; try exact I. exact H.
      - intros rep items _ _ sc u S H. cbn [cinl]. destruct u; try exact I. exact H.
      - intros len flags items _ _ _ sc u S H. cbn [cinl]. destruct u; try exact H; exact I.
      - (* array *) intros t ex len IHt IHl [Tt Tl] sc u S _. cbn [cinl]. eapply safe_bind with (P := fun _ => True).
        { destruct len as [e|]; [|exact I]. eapply safe_bind; [apply (IHl Tl sc _ S)|intros; exact I]. destruct ex; exact I. }
        intros len' _. eapply safe_bind; [apply (IHt Tt sc ForArray S); destruct t; exact I|]. intros el' Tw. exact Tw.
    Qed.
    Lemma cexpr_safe e sc x : e_tame FN XF False e -> scw sc -> wfx L x -> safe typed (cexpr en n p sc e x).
    Proof. intros T S X. apply (proj1 exprs_safe e T sc x S X). Qed.
    Lemma cinl_safe t sc u : t_tame FN XF False t -> scw sc -> inl_ok t u -> safe (wft L) (cinl en n p sc t u).
    Proof. intros T S X. apply (proj1 (proj2 exprs_safe) t T sc u S X). Qed.
    Lemma copt_safe sc o x : match o with Some e => e_tame FN XF False e | None => True end -> scw sc -> wfx L x -> safe (fun _ => True) (copt en n p sc o x).
    Proof. intros T S X. destruct o as [e|]; [|exact I]. cbn [copt]. eapply safe_bind; [apply cexpr_safe; assumption|]. intros; exact I. Qed.
    Lemma cargs_safe sc : scw sc -> forall args, (fix all (l : list aexpr) : Prop := match l with [] => True | e :: l => e_tame FN XF False e /\ all l end) args ->
      forall ps, Forall fparam_basic ps -> safe (fun _ => True) (cargs en n p sc args (map (ffi_expected n p) ps)).
    Proof.
      intros S. induction args as [|e l IH]; intros T ps B; [exact I|]. destruct ps as [|q ps]; [exact I|]. apply Forall_inv in B as B1. apply Forall_inv_tail in B as B2.
      destruct T as [T1 T2]. cbn [cargs map]. eapply safe_bind; [apply fparam_wft, B1|]. intros xt X. eapply safe_bind; [apply cexpr_safe; assumption|]. intros e' _.
      eapply safe_bind; [apply IH; assumption|]. intros; exact I.
    Qed.
    Lemma cenum_safe sc rep : scw sc -> forall items last k dflt acc,
      (last = None -> match items with (_, VNone) :: _ => dflt = true | _ => True end) -> 
      (fix all (l : list (name * aenum)) : Prop := match l with [] => True | (_, v) :: l => match v with VExpr e => e_tame FN XF False e | _ => True end /\ all l end) items ->
      safe (fun _ => True) (cenum en n p sc rep items last k dflt acc).
    Proof.
      intros S. induction items as [|[v it] items IH]; intros last k dflt acc H T; [exact I|]. cbn [cenum]. destruct (mget v acc); [exact I|]. destruct dflt; [exact I|].
      destruct T as [T1 T2]. destruct it as [| |e].
      - destruct last as [[ln le]|]; [|discriminate (H eq_refl)]. destruct (ci_parse _ _); [|exact I]. apply IH; [discriminate|exact T2].
      - apply IH; [|exact T2]. intros _. destruct items as [|[? []] ?]; try exact I. reflexivity.
      - eapply safe_bind; [apply cexpr_safe; [exact T1|exact S|exact I]|]. intros e' _. apply IH; [discriminate|exact T2].
    Qed.
    Lemma cbits_safe sc rep : scw sc -> forall items last k acc,
      (last = None -> match items with (_, None) :: _ => False | _ => True end) -> 
      (fix all (l : list (name * option aexpr)) : Prop := match l with [] => True | (_, v) :: l => match v with Some e => e_tame FN XF False e | None => True end /\ all l end) items ->
      safe (fun _ => True) (cbits en n p sc rep items last k acc).
    Proof.
      intros S. induction items as [|[v it] items IH]; intros last k acc H T; [exact I|]. cbn [cbits]. destruct (mget v acc); [exact I|].
      destruct T as [T1 T2]. destruct it as [e|].
      - eapply safe_bind; [apply cexpr_safe; [exact T1|exact S|exact I]|]. intros e' _. apply IH; [discriminate|exact T2].
      - destruct last as [[ln le]|]; [|destruct (H eq_refl)]. destruct (ci_parse _ _); [|exact I]. apply IH; [discriminate|exact T2].
    Qed.
    Lemma cxforms_safe sc : scw sc -> forall xs, (fix all (l : list axform) : Prop :=
           match l with
           | [] => True
           | AXform _ args cond :: l =>
               XF (List.length args) /\ (fix all (l : list aexpr) : Prop := match l with [] => True | e :: l => e_tame FN XF False e /\ all l end) args /\
               match cond with Some e => e_tame FN XF False e | None => True end /\ all l
           end) xs -> safe (fun _ => True) (cxforms en n p sc xs).
    Proof.
      intros S. induction xs as [|[x args cond] xs IH]; intros T; [exact I|]. destruct T as (T1 & T2 & T3 & T4). cbn [cxforms].
      destruct (mget x (p_xforms p)) as [ps|] eqn:E; [|exact I]. destruct (tw_xforms _ _ (proj2 W) x ps E) as [B K].
      eapply safe_bind; [apply ffi_safe, K, T1|]. intros _ _. eapply safe_bind; [apply cargs_safe; assumption|]. intros args' _.
      eapply safe_bind; [apply copt_safe; [exact T3|exact S|exact I]|]. intros c' _. eapply safe_bind; [apply IH, T4|]. intros; exact I.
    Qed.
  End Rd.

  (** ** Types that declare fields *)
  Notation SC p sc := (scw p sc).
  Lemma scw_mono p p' sc : (size p <= size p')%nat -> SC p sc -> SC p' sc.
  Proof. intros H [A B]. split; [intros x i E; specialize (A x i E); lia|intros x t E; exact (wft_mono _ _ _ H (B x t E))]. Qed.
  Lemma scw_frame p fs ins sc : (forall x i, mget x fs = Some i -> (i < size p)%nat) -> (forall x t, mget x ins = Some t -> wft (size p) t) -> SC p sc ->
    SC p ({| fr_fields := fs; fr_inputs := ins |} :: sc).
  Proof.
    intros F G [A B]. split; intros x v; cbn [resolve_field resolve_input fr_fields fr_inputs].
    - destruct (mget x fs) eqn:E; [intros H; injection H as <-; exact (F x _ E)|apply A].
    - destruct (mget x ins) eqn:E; [intros H; injection H as <-; exact (G x _ E)|apply B].
  Qed.
  Lemma scw_frame0 p sc : SC p sc -> SC p (frame0 :: sc).
  Proof. apply scw_frame; intros; discriminate. Qed.
  Lemma mget_mput {A} x y (v w : A) m : mget x (mput y v m) = Some w -> w = v \/ mget x m = Some w.
  Proof.
    induction m as [|[k u] m IH]; cbn.
    - destruct (name_eqb x y); [|discriminate]. intros H; injection H as ->. left; reflexivity.
    - destruct (name_eqb y k) eqn:E; cbn.
      + apply name_eqb_eq in E. subst y. destruct (name_eqb x k); [intros H; injection H as ->; left; reflexivity|intros H; right; exact H].
      + destruct (name_eqb x k); [intros H; right; exact H|exact IH].
  Qed.
  Lemma mput_forall {A} (P : name * A -> Prop) y v m : (forall k, P (k, v)) -> Forall P m -> Forall P (mput y v m).
  Proof.
    intros H. induction 1 as [|[k u] m Hm Hf IH]; cbn; [constructor; [apply H|constructor]|]. destruct (name_eqb y k); constructor; auto.
  Qed.

  Definition grown (p p' : prog) : Prop := pwf p' /\ (size p <= size p')%nat /\ tables p p'.
  Lemma grown_trans p q r : grown p q -> grown q r -> grown p r.
  Proof. intros (A & B & C) (A' & B' & C'). split; [exact A'|]. split; [lia|]. exact (tables_trans _ _ _ C C'). Qed.
  Lemma grown_refl p : pwf p -> grown p p.
  Proof. intros W. split; [exact W|]. split; [lia|apply tables_refl]. Qed.
  Lemma fwf_mono L L' f : (L <= L')%nat -> fwf L f -> fwf L' f.
  Proof. intros H [A B]. split; [exact (wft_mono _ _ _ H A)|]. eapply Forall_impl; [|exact B]. intros q. apply wft_mono, H. Qed.
  Lemma add_grown p f : pwf p -> fwf (S (size p)) f -> grown p (st_add p f).
  Proof.
    intros [S T] F. assert (Sz : size (st_add p f) = Datatypes.S (size p)) by apply st_add_size. split; [split|split].
    - intros i g G. rewrite Sz. cbn [st_add p_store] in G. destruct (Nat.lt_ge_cases i (size p)) as [Hi|Hi].
      + rewrite nth_error_app1 in G by exact Hi. apply (fwf_mono (size p)); [lia|]. exact (S i g G).
      + rewrite nth_error_app2 in G by exact Hi. destruct (i - size p)%nat as [|j]; cbn in G; [injection G as <-; exact F|destruct j; discriminate].
    - rewrite Sz. apply (twf_mono (size p)); [lia|]. apply (twf_tables _ p); [constructor; reflexivity|exact T].
    - rewrite Sz. lia.
    - constructor; reflexivity.
  Qed.
  Lemma upd_get {A} (l : list A) i g : forall j x, nth_error (upd l i g) j = Some x -> exists y, nth_error l j = Some y /\ (x = y \/ x = g y).
  Proof.
    revert i. induction l as [|a l IH]; intros i j x H; cbn in H; [destruct j; discriminate|]. destruct i as [|i], j as [|j]; cbn in *.
    - injection H as <-. eauto.
    - eauto.
    - injection H as <-. eauto.
    - eapply IH, H.
  Qed.
  Lemma set_grown p i g : pwf p -> (forall f, fwf (size p) f -> fwf (size p) (g f)) -> grown p (st_set p i g).
  Proof.
    intros [S T] F. split; [split|split].
    - intros j f G. rewrite st_set_size. cbn [st_set p_store] in G. apply upd_get in G. destruct G as (y & G & [->| ->]); [|apply F]; exact (S j y G).
    - rewrite st_set_size. apply (twf_tables _ p); [constructor; reflexivity|exact T].
    - rewrite st_set_size. lia.
    - apply st_set_tables.
  Qed.

  Section Ty.
    Variable n : nat.
    Definition opt_tame (o : option aexpr) : Prop := match o with Some e => e_tame FN XF False e | None => True end.
    Lemma cend_safe sc calc i p : pwf p -> SC p sc -> opt_tame calc -> (i < size p)%nat -> safe (grown p) (cend en n sc calc i p).
    Proof.
      intros W S T Hi. unfold cend. destruct (get_ok p W i Hi) as (f & G & [Tf Pf]). rewrite G.
      assert (K : forall c, grown p (st_set p i (set_calc c))). { intros c. apply set_grown; [exact W|]. intros g [A B]. split; assumption. }
      destruct calc as [e|]; [|apply K]. eapply safe_bind; [apply into_partial_safe; [exact W|exact Tf]|]. intros xt X.
      eapply safe_bind; [apply cexpr_safe; assumption|]. intros e' _. apply K.
    Qed.
    Lemma cends_safe sc : forall l p, pwf p -> SC p sc -> Forall (fun x : nat * option aexpr => (fst x < size p)%nat /\ opt_tame (snd x)) l -> safe (grown p) (cends en n sc l p).
    Proof.
      induction l as [|[i calc] l IH]; intros p W S H; [apply grown_refl, W|]. cbn [cends]. apply Forall_inv in H as H1. apply Forall_inv_tail in H as H2. cbn [fst snd] in H1.
      eapply safe_bind; [apply cend_safe; [exact W|exact S|apply H1|apply H1]|]. intros p1 G. pose proof G as (W1 & L1 & T1).
      eapply safe_mono; [|apply (IH p1 W1 (scw_mono _ _ _ L1 S))]. { intros p2 G2. exact (grown_trans _ _ _ G G2). }
      eapply Forall_impl; [|exact H2]. cbn. intros x [A B]. split; [lia|exact B].
    Qed.

    Definition Qt (t : atype) : Prop := t_tame FN XF False t -> forall sc u p, pwf p -> SC p sc ->
      safe (fun r : fty * prog => grown p (snd r) /\ wft (size (snd r)) (fst r)) (ctype en n sc t u p).
    Definition Qf (f : afield) : Prop := f_tame FN XF False f -> forall sc u i p, pwf p -> SC p sc -> (i < size p)%nat -> safe (grown p) (cmid en n sc f u i p).
    Lemma inline_safe t : (forall sc u p, ctype en n sc t u p = bind (cinl en n p sc t u) (fun t' => Ok (t', p))) -> (forall u, inl_ok t u) -> Qt t.
    Proof.
      intros E K T sc u p W S. rewrite E. eapply safe_bind; [apply cinl_safe; [exact W|exact T|exact S|apply K]|]. intros t' Tw. split; [apply grown_refl, W|exact Tw].
    Qed.
    Lemma field_safe t calc flags cond xs : Qt t -> Qf (AField t calc flags cond xs).
    Proof.
      intros IH (Tt & Tcalc & Tcond & Txs) sc u i p W S Hi. rewrite cmid_eq. eapply safe_bind; [apply (IH Tt sc u p W S)|]. intros [t' p1] [G Tw]. cbn [fst snd] in G, Tw.
      pose proof G as (W1 & L1 & T1). pose proof (scw_mono _ _ _ L1 S) as S1. eapply safe_bind; [apply copt_safe; [exact W1|exact Tcond|exact S1|exact I]|]. intros c _.
      eapply safe_bind; [apply cxforms_safe; [exact W1|exact S1|exact Txs]|]. intros xs' _. destruct flags; [|exact I].
      apply (grown_trans _ p1); [exact G|]. apply set_grown; [exact W1|]. intros f [A B]. split; [exact Tw|exact B].
    Qed.

    Record sinv (p0 : prog) (s : cst) : Prop := {
      si_grown : grown p0 (cs_prog s);
      si_items : Forall (fun x : name * nat => (snd x < size (cs_prog s))%nat) (cs_items s);
      si_fields : forall x i, mget x (cs_fields s) = Some i -> (i < size (cs_prog s))%nat;
      si_ends : Forall (fun x : nat * option aexpr => (fst x < size (cs_prog s))%nat /\ opt_tame (snd x)) (cs_ends s) }.
    Lemma calc_tame f : f_tame FN XF False f -> opt_tame (calc_of f).
    Proof. destruct f. intros (_ & T & _). exact T. Qed.
    Lemma citems_safe p0 sc tagged : SC p0 sc -> forall l, Forall (item_all (fun _ => True) Qf) l ->
      (fix all (l : list aitem) : Prop := match l with [] => True | IPad e :: l => e_tame FN XF False e /\ all l | IField _ f :: l => f_tame FN XF False f /\ all l end) l ->
      forall s, sinv p0 s -> safe (sinv p0) (citems en n sc tagged l s).
    Proof.
      intros S. induction 1 as [|i l H _ IH]; intros T s V; [exact V|]. pose proof V as [G It Fi En]. pose proof G as (W & L & Tb).
      assert (S' : SC (cs_prog s) ({| fr_fields := cs_fields s; fr_inputs := [] |} :: sc)).
      { apply scw_frame; [exact Fi|discriminate|exact (scw_mono _ _ _ L S)]. }
      destruct i as [e|x f]; destruct T as [T1 T2].
      - rewrite citems_pad. destruct tagged; [exact I|]. cbv zeta. eapply safe_bind; [apply cexpr_safe; [exact W|exact T1|exact S'|exact I]|]. intros len _.
        apply IH; [exact T2|]. assert (A : grown (cs_prog s) (st_add (cs_prog s) (pad_field (pad_name (cs_pads s)) len))).
        { apply add_grown; [exact W|]. split; [exact I|constructor]. }
        assert (Sz : size (st_add (cs_prog s) (pad_field (pad_name (cs_pads s)) len)) = Datatypes.S (size (cs_prog s))) by apply st_add_size.
        constructor; cbn [cs_prog cs_items cs_fields cs_ends]; rewrite ?Sz.
        + exact (grown_trans _ _ _ G A).
        + apply mput_forall; [intros k; cbn; lia|]. eapply Forall_impl; [|exact It]. cbn. lia.
        + intros y j E. specialize (Fi y j E). lia.
        + eapply Forall_impl; [|exact En]. cbn. intros z [B C]. split; [lia|exact C].
      - rewrite citems_field. destruct (mget x (cs_items s)); [exact I|]. cbv zeta.
        assert (A : grown (cs_prog s) (st_add (cs_prog s) (placeholder x false))). { apply add_grown; [exact W|]. split; [exact I|constructor]. }
        pose proof A as (Wa & La & Ta). assert (Sz : size (st_add (cs_prog s) (placeholder x false)) = Datatypes.S (size (cs_prog s))) by apply st_add_size.
        cbn [item_all] in H. eapply safe_bind; [apply (H T1); [exact Wa|apply scw_frame0, (scw_mono _ _ _ La S')|lia]|].
        intros p1 G1. pose proof G1 as (W1 & L1 & Tb1). destruct (cs_uncond s && tagged); [exact I|]. apply IH; [exact T2|].
        constructor; cbn [cs_prog cs_items cs_fields cs_ends].
        + exact (grown_trans _ _ _ G (grown_trans _ _ _ A G1)).
        + apply mput_forall; [intros k; cbn; lia|]. eapply Forall_impl; [|exact It]. cbn. lia.
        + intros y j E. apply mget_mput in E as [->|E]; [lia|]. specialize (Fi y j E). lia.
        + apply Forall_app. split; [eapply Forall_impl; [|exact En]; cbn; intros z [B C]; split; [lia|exact C]|].
          constructor; [|constructor]. cbn [fst snd]. split; [lia|exact (calc_tame f T1)].
    Qed.
    Lemma cont_safe len flags items : Forall (item_all (fun _ => True) Qf) items -> Qt (YCont len flags items).
    Proof.
      intros H [Tl T] sc u p W S. rewrite ctype_cont.
      assert (K : safe (fun r : fty * prog => grown p (snd r) /\ wft (size (snd r)) (fst r))
        (let! len' := copt en n p sc len (PScalar (PDefaults U64)) in
        let! tagged := cflags flags false in
        if tagged && negb (match u with ForType _ => true | _ => false end) then Err XToplevel else
        let! s := citems en n sc tagged items {| cs_prog := p; cs_items := []; cs_fields := []; cs_ends := []; cs_uncond := false; cs_pads := 0 |} in
        let! p2 := cends en n (frame0 :: {| fr_fields := cs_fields s; fr_inputs := [] |} :: sc) (cs_ends s) (cs_prog s) in
        Ok (FCont len' (cs_items s) tagged, p2))).
      { eapply safe_bind; [apply copt_safe; [exact W|exact Tl|exact S|exact I]|]. intros len' _.
        eapply safe_bind with (P := fun _ => True). { generalize false. induction flags as [|y flags IH]; intros b; cbn; [exact I|]. destruct (name_eqb _ _); [apply IH|exact I]. }
        intros tagged _. destruct (tagged && _); [exact I|].
        eapply safe_bind; [apply (citems_safe p sc tagged S items H T)|]. { constructor; cbn; [apply grown_refl, W|constructor|discriminate|constructor]. }
        intros s [G It Fi En]. pose proof G as (W1 & L1 & Tb1).
        eapply safe_bind; [apply cends_safe; [exact W1| |exact En]|]. { apply scw_frame0, scw_frame; [exact Fi|discriminate|exact (scw_mono _ _ _ L1 S)]. }
        intros p2 G2. pose proof G2 as (W2 & L2 & _). split; [exact (grown_trans _ _ _ G G2)|]. cbn [fst snd wft]. eapply Forall_impl; [|exact It]. cbn. lia. }
      destruct u; try exact K. exact I.
    Qed.
    Lemma types_safe : (forall e : aexpr, True) /\ (forall t, Qt t) /\ (forall f, Qf f).
    Proof.
      apply syntax_ind; try (intros; exact I); try (intros; apply inline_safe; [reflexivity|intros []; exact I]).
      - intros rep items _ [Hh T] sc u p W S. cbn [ctype]. destruct u; try exact I. eapply safe_bind; [apply cenum_safe; [exact W|exact S| |exact T]|].
        { intros _. destruct items as [|[? []] ?]; try exact I. destruct Hh. } intros its _. split; [apply grown_refl, W|exact I].
      - intros rep items _ [Hh T] sc u p W S. cbn [ctype]. destruct u; try exact I. eapply safe_bind; [apply cbits_safe; [exact W|exact S| |exact T]|].
        { intros _. destruct items as [|[? []] ?]; try exact I. destruct Hh. } intros its _. split; [apply grown_refl, W|exact I].
      - intros len flags items _ H. apply cont_safe, H.
      - intros. apply field_safe. assumption.
    Qed.
    Lemma ctype_safe t : Qt t. Proof. apply types_safe. Qed.
    Lemma cmid_safe f : Qf f. Proof. apply types_safe. Qed.

    Lemma cparams_safe sc : forall l fr acc p, pwf p -> SC p (fr :: sc) ->
      Forall (fun a => t_tame FN XF False (ta_type a) /\ opt_tame (ta_default a)) l -> Forall (fun q => wft (size p) (pm_type q)) acc ->
      safe (fun r : frame * list param * prog => let '(fr', ps, p') := r in grown p p' /\ SC p' (fr' :: sc) /\ Forall (fun q => wft (size p') (pm_type q)) ps) (cparams en n sc l fr acc p).
    Proof.
      induction l as [|a l IH]; intros fr acc p W S T A; [split; [apply grown_refl, W|split; assumption]|]. cbn [cparams]. apply Forall_inv in T as T1. apply Forall_inv_tail in T as T2.
      destruct T1 as [Tt Td]. eapply safe_bind; [apply (ctype_safe (ta_type a) Tt (fr :: sc) ForExpr p W S)|]. intros [t p1] [G Tw]. cbn [fst snd] in G, Tw. pose proof G as (W1 & L1 & _).
      assert (S1 : SC p1 ({| fr_fields := fr_fields fr; fr_inputs := mput (ta_name a) t (fr_inputs fr) |} :: sc)).
      { destruct (scw_mono _ _ _ L1 S) as [SA SB]. split; intros x v; cbn [resolve_field resolve_input fr_fields fr_inputs].
        - intros E. apply (SA x v). exact E.
        - destruct (mget x (mput (ta_name a) t (fr_inputs fr))) as [t'|] eqn:E.
          + intros H; injection H as <-. apply mget_mput in E as [->|E]; [exact Tw|]. apply (SB x t'). cbn [resolve_input]. rewrite E. reflexivity.
          + intros H. apply (SB x v). cbn [resolve_input]. destruct (mget x (fr_inputs fr)) as [t'|] eqn:E'; [|exact H]. exfalso.
            destruct (name_eqb x (ta_name a)) eqn:Q; [apply name_eqb_eq in Q; subst x; rewrite mget_put_same in E; discriminate|].
            apply name_eqb_neq in Q. rewrite mget_put_other in E by exact Q. congruence. }
      eapply safe_bind with (P := fun _ => True).
      { destruct (ta_default a) as [e|]; [|exact I]. eapply safe_bind; [apply into_partial_safe; [exact W1|exact Tw]|]. intros xt X.
        eapply safe_bind; [apply cexpr_safe; [exact W1|exact Td|exact S1|exact X]|]. intros; exact I. }
      intros d _. eapply safe_mono; [|apply (IH _ _ p1 W1 S1 T2)].
      - intros [[fr' ps] p'] (G2 & S2 & P2). split; [exact (grown_trans _ _ _ G G2)|]. split; assumption.
      - apply Forall_app. split; [eapply Forall_impl; [|exact A]; intros q; apply wft_mono, L1|]. constructor; [exact Tw|constructor].
    Qed.
  End Ty.

  (** ** Whole programs *)
  Section Whole.
    Variable n : nat.
    Definition step (p p' : prog) : Prop := pwf p' /\ (size p <= size p')%nat.
    Lemma grown_step p p' : grown p p' -> step p p'. Proof. intros (A & B & _). split; assumption. Qed.
    Lemma prelude_pwf : forall l p, (forall x f, In (x, f) l -> fun_ok x f) -> pwf p -> step p (add_prelude l p).
    Proof.
      induction l as [|[x f] l IH]; intros p H W; [split; [exact W|apply le_n]|]. cbn [add_prelude].
      apply (IH (with_funcs p (mput x f (p_funcs p)))); [intros y g Hy; apply H; right; exact Hy|]. destruct W as [S [A B C D]]. split; [exact S|]. constructor; auto.
      intros y g E. cbn [with_funcs p_funcs] in E. destruct (name_eqb y x) eqn:Q.
      - apply name_eqb_eq in Q. subst y. rewrite mget_put_same in E. injection E as <-. apply H. left. reflexivity.
      - apply name_eqb_neq in Q. rewrite mget_put_other in E by exact Q. exact (D y g E).
    Qed.
    Lemma types_pwf p x i : pwf p -> (i < size p)%nat -> pwf (with_types p (mput x i (p_types p))).
    Proof. intros [S [A B C D]] Hi. split; [exact S|]. constructor; auto. apply mput_forall; [intros k; exact Hi|exact A]. Qed.
    Lemma consts_pwf p x c : pwf p -> wft (size p) (c_type c) -> pwf (with_consts p (mput x c (p_consts p))).
    Proof. intros [S [A B C D]] Hi. split; [exact S|]. constructor; auto. intros y j E. apply mget_mput in E as [->|E]; [exact Hi|exact (B y j E)]. Qed.
    Lemma xforms_pwf p x ps : pwf p -> xf_ok ps -> pwf (with_xforms p (mput x ps (p_xforms p))).
    Proof. intros [S [A B C D]] Hi. split; [exact S|]. constructor; auto. intros y j E. apply mget_mput in E as [->|E]; [exact Hi|exact (C y j E)]. Qed.

    Lemma basics_wft L ps : Forall (fun q => simple_type (pm_type q)) ps -> Forall (fun q => wft L (pm_type q)) ps.
    Proof. apply Forall_impl. intros q. apply simple_wft. Qed.
    Lemma ffi_decl_safe x k p : pwf p -> safe (fun p' => step p p') (ffi_decl rs x k p).
    Proof.
      intros W. destruct k; cbn [ffi_decl].
      - destruct (sr_xform rs RS x) as [Np Hp]. destruct (r_xform rs x) as [[ps|]| | |] eqn:E; try exact I; cbn [bind]; [|exact (Np eq_refl)].
        destruct (mget x (p_xforms p)); [exact I|]. split; [|cbn; lia]. apply xforms_pwf; [exact W|]. split; [exact (Hp ps eq_refl)|]. intros j J. exact (J x ps E).
      - destruct (sr_type rs RS x) as [Np Hp]. destruct (r_type rs x) as [[ps|]| | |] eqn:E; try exact I; cbn [bind]; [|exact (Np eq_refl)].
        destruct (mget x (p_types p)); [exact I|].
        set (fd := {| f_name := x; f_params := ps; f_type := FForeign x; f_calc := None; f_cond := None; f_xs := []; f_top := true; f_cyclic := false; f_pad := false |}). cbv zeta.
        assert (G : grown p (st_add p fd)). { apply add_grown; [exact W|]. split; [exact I|]. cbn. apply basics_wft, (Hp ps eq_refl). }
        destruct G as (Wa & La & _). assert (Sz : size (st_add p fd) = Datatypes.S (size p)) by apply st_add_size.
        split; [apply types_pwf; [exact Wa|lia]|exact La].
      - destruct (sr_func rs RS x) as [Np Hp]. destruct (r_func rs x) as [[f|]| | |] eqn:E; try exact I; cbn [bind]; [|exact (Np eq_refl)].
        destruct (mget x (p_funcs p)); [exact I|]. split; [|cbn; lia]. destruct W as [S [A B C D]]. split; [exact S|]. constructor; auto.
        intros y g G. cbn [with_funcs p_funcs] in G. destruct (name_eqb y x) eqn:Q.
        + apply name_eqb_eq in Q. subst y. rewrite mget_put_same in G. injection G as <-. destruct (Hp f eq_refl) as [X Y]. split; [exact X|]. split; [exact Y|]. intros j J. exact (J f (or_intror E)).
        + apply name_eqb_neq in Q. rewrite mget_put_other in G by exact Q. exact (D y g G).
    Qed.
    Lemma ffi_decls_safe : forall l p, pwf p -> safe (fun p' => step p p') (ffi_decls rs l p).
    Proof.
      induction l as [|d l IH]; intros p W; [split; [exact W|apply le_n]|]. destruct d; cbn [ffi_decls]; try (apply IH, W). eapply safe_bind; [apply ffi_decl_safe, W|].
      intros p1 [W1 L1]. eapply safe_mono; [|apply IH, W1]. intros p2 [W2 L2]. split; [exact W2|lia].
    Qed.
    Definition cwf (L : nat) (c : list (name * prog)) : Prop := forall x q, mget x c = Some q -> twf L q.
    Lemma import_items_safe q : forall l p, pwf p -> twf (size p) q -> safe (fun p' => pwf p' /\ size p' = size p) (import_items q l p).
    Proof.
      induction l as [|[x alias] l IH]; intros p W Q; [split; [exact W|reflexivity]|]. cbn [import_items]. destruct (mget x (p_types q)) as [i|] eqn:E1.
      { apply (IH (with_types p _)); [|exact Q]. apply types_pwf; [exact W|exact (tw_types _ _ Q x i E1)]. }
      destruct (mget x (p_consts q)) as [c|] eqn:E2.
      { apply (IH (with_consts p _)); [|exact Q]. apply consts_pwf; [exact W|exact (tw_consts _ _ Q x c E2)]. }
      destruct (mget x (p_xforms q)) as [ps|] eqn:E3; [|exact I].
      apply (IH (with_xforms p _)); [|exact Q]. apply xforms_pwf; [exact W|exact (tw_xforms _ _ Q x ps E3)].
    Qed.
    Lemma import_decls_safe c : forall l p, pwf p -> cwf (size p) c -> safe (fun p' => pwf p' /\ size p' = size p) (import_decls rs c l p).
    Proof.
      induction l as [|d l IH]; intros p W C; [split; [exact W|reflexivity]|]. destruct d; cbn [import_decls]; try (apply IH; assumption).
      pose proof (sr_norm rs RS from) as Np. destruct (r_norm rs from) as [x| | |]; try exact I; cbn [bind]; [|exact (Np eq_refl)].
      destruct (mget x c) as [q|] eqn:E; [|exact I]. eapply safe_bind; [apply import_items_safe; [exact W|exact (C x q E)]|]. intros p1 [W1 E1].
      eapply safe_mono; [|apply (IH p1 W1); rewrite E1; exact C]. intros p2 [W2 E2]. split; [exact W2|congruence].
    Qed.

    Lemma scope0_ok p : SC p scope0. Proof. split; intros x v H; discriminate. Qed.
    Lemma type_decl_safe x p : pwf p -> safe (fun r : nat * prog => step p (snd r) /\ (fst r < size (snd r))%nat) (type_decl x p).
    Proof.
      intros W. unfold type_decl. destruct (mget x (p_types p)); [exact I|]. cbv zeta.
      assert (G : grown p (st_add p (placeholder x true))). { apply add_grown; [exact W|]. split; [exact I|constructor]. }
      destruct G as (Wa & La & _). assert (Sz : size (st_add p (placeholder x true)) = Datatypes.S (size p)) by apply st_add_size.
      cbn [safe fst snd]. split; [split; [apply types_pwf; [exact Wa|lia]|exact La]|]. change (size p < size (st_add p (placeholder x true)))%nat. lia.
    Qed.
    Definition args_tame (args : list targ) : Prop := Forall (fun a => t_tame FN XF False (ta_type a) /\ opt_tame (ta_default a)) args.
    Lemma type_params_safe i args p : pwf p -> args_tame args -> safe (fun r : frame * prog => step p (snd r) /\ SC (snd r) (fst r :: scope0)) (type_params en n i args p).
    Proof.
      intros W T. unfold type_params. eapply safe_bind; [apply (cparams_safe n scope0 args frame0 [] p W); [apply scw_frame0, scope0_ok|exact T|constructor]|].
      intros [[fr ps] p1] (G & S & P). pose proof G as (W1 & L1 & _).
      assert (G2 : grown p1 (st_set p1 i (set_params ps))). { apply set_grown; [exact W1|]. intros f [A B]. split; [exact A|exact P]. }
      destruct G2 as (W2 & L2 & _). cbn [safe fst snd]. split; [split; [exact W2|lia]|]. exact (scw_mono _ _ _ L2 S).
    Qed.
    Lemma type_body_safe fr i x f p : pwf p -> f_tame FN XF False f -> SC p (fr :: scope0) -> (i < size p)%nat -> safe (fun p' => step p p') (type_body en n fr i x f p).
    Proof.
      intros W T S Hi. unfold type_body. eapply safe_bind; [apply (cmid_safe n f T); assumption|]. intros p1 (W1 & L1 & _).
      eapply safe_mono; [|apply cend_safe; [exact W1|exact (scw_mono _ _ _ L1 S)|apply calc_tame, T|lia]]. intros p2 (W2 & L2 & _). split; [exact W2|lia].
    Qed.
    Lemma const_decl_safe x t v p : pwf p -> t_tame FN XF False t -> e_tame FN XF False v -> safe (fun p' => step p p') (const_decl en n x t v p).
    Proof.
      intros W Tt Tv. unfold const_decl. destruct (mget x (p_consts p)); [exact I|]. eapply safe_bind; [apply (ctype_safe n t Tt scope0 ForConst p W (scope0_ok p))|].
      intros [t' p1] [G Tw]. cbn [fst snd] in G, Tw. pose proof G as (W1 & L1 & _).
      assert (K : safe (fun p' => step p p') (let! xt := into_partial n p1 t' in let! v' := cexpr en n p1 scope0 v xt in
            Ok (with_consts p1 (mput x {| c_name := x; c_type := t'; c_value := v' |} (p_consts p1))))).
      { eapply safe_bind; [apply into_partial_safe; [exact W1|exact Tw]|]. intros xt X. eapply safe_bind; [apply cexpr_safe; [exact W1|exact Tv|apply scope0_ok|exact X]|].
        intros v' _. split; [apply consts_pwf; [exact W1|exact Tw]|exact L1]. }
      destruct t'; try exact K; exact I.
    Qed.
    Lemma early_safe : forall l p, pwf p -> tame FN XF False l -> safe (fun p' => step p p') (early en n l p).
    Proof.
      induction l as [|d l IH]; intros p W T; [split; [exact W|apply le_n]|]. apply Forall_inv in T as T1. apply Forall_inv_tail in T as T2.
      assert (K : forall p1, step p p1 -> safe (fun p' => step p p') (early en n l p1)).
      { intros p1 [W1 L1]. eapply safe_mono; [|apply (IH p1 W1 T2)]. intros p2 [W2 L2]. split; [exact W2|lia]. }
      destruct d as [x args f|items from|x k|x t v]; cbn [early]; try (apply K; split; [exact W|apply le_n]).
      - destruct (is_def f); [|apply K; split; [exact W|apply le_n]]. destruct T1 as [Ta Tf]. eapply safe_bind; [apply type_decl_safe, W|]. intros [i p1] [[W1 L1] Hi]. cbn [fst snd] in *.
        eapply safe_bind; [apply (type_params_safe i args p1 W1 Ta)|]. intros [fr p2] [[W2 L2] S2]. cbn [fst snd] in *.
        eapply safe_bind; [apply (type_body_safe fr i x f p2 W2 Tf S2); lia|]. intros p3 [W3 L3]. apply K. split; [exact W3|lia].
      - destruct T1 as [Tt Tv]. eapply safe_bind; [apply const_decl_safe; assumption|]. intros p1 H1. apply K, H1.
    Qed.
    Definition q_ok (L : nat) (q : nat * name * list targ * afield) : Prop := let '(i, x, args, f) := q in (i < L)%nat /\ args_tame args /\ f_tame FN XF False f.
    Lemma late_names_safe : forall l p, pwf p -> tame FN XF False l -> safe (fun r : list (nat * name * list targ * afield) * prog => step p (snd r) /\ Forall (q_ok (size (snd r))) (fst r)) (late_names l p).
    Proof.
      induction l as [|d l IH]; intros p W T; [split; [split; [exact W|apply le_n]|constructor]|]. apply Forall_inv in T as T1. apply Forall_inv_tail in T as T2.
      destruct d as [x args f|items from|x k|x t v]; cbn [late_names]; try (apply IH; assumption). destruct (is_def f); [apply IH; assumption|]. destruct T1 as [Ta Tf].
      eapply safe_bind; [apply type_decl_safe, W|]. intros [i p1] [[W1 L1] Hi]. cbn [fst snd] in *. eapply safe_bind; [apply (IH p1 W1 T2)|].
      intros [q p2] [[W2 L2] Q]. cbn [safe fst snd] in *. split; [split; [exact W2|lia]|]. constructor; [|exact Q]. split; [lia|]. split; assumption.
    Qed.
    Definition b_ok (p : prog) (q : frame * nat * name * afield) : Prop := let '(fr, i, x, f) := q in (i < size p)%nat /\ SC p (fr :: scope0) /\ f_tame FN XF False f.
    Lemma b_ok_mono p p' q : (size p <= size p')%nat -> b_ok p q -> b_ok p' q.
    Proof. destruct q as [[[fr i] x] f]. intros L (A & B & C). split; [lia|]. split; [exact (scw_mono _ _ _ L B)|exact C]. Qed.
    Lemma late_params_safe : forall l p, pwf p -> Forall (q_ok (size p)) l -> safe (fun r : list (frame * nat * name * afield) * prog => step p (snd r) /\ Forall (b_ok (snd r)) (fst r)) (late_params en n l p).
    Proof.
      induction l as [|[[[i x] args] f] l IH]; intros p W T; [split; [split; [exact W|apply le_n]|constructor]|]. apply Forall_inv in T as T1. apply Forall_inv_tail in T as T2. destruct T1 as (Hi & Ta & Tf).
      cbn [late_params]. eapply safe_bind; [apply (type_params_safe i args p W Ta)|]. intros [fr p1] [[W1 L1] S1]. cbn [fst snd] in *. eapply safe_bind; [apply (IH p1 W1)|].
      { eapply Forall_impl; [|exact T2]. intros [[[j y] args'] g] (A & B). split; [lia|exact B]. }
      intros [q p2] [[W2 L2] Q]. cbn [safe fst snd] in *. split; [split; [exact W2|lia]|]. constructor; [|exact Q]. apply (b_ok_mono p1 p2 _ L2). split; [lia|]. split; assumption.
    Qed.
    Lemma late_bodies_safe : forall l p, pwf p -> Forall (b_ok p) l -> safe (fun p' => step p p') (late_bodies en n l p).
    Proof.
      induction l as [|[[[fr i] x] f] l IH]; intros p W T; [split; [exact W|apply le_n]|]. apply Forall_inv in T as T1. apply Forall_inv_tail in T as T2. destruct T1 as (Hi & S & Tf).
      cbn [late_bodies]. eapply safe_bind; [apply type_body_safe; assumption|]. intros p1 [W1 L1]. eapply safe_mono; [|apply (IH p1 W1)].
      - intros p2 [W2 L2]. split; [exact W2|lia].
      - eapply Forall_impl; [|exact T2]. intros q. apply b_ok_mono, L1.
    Qed.
    Lemma gather_safe p : pwf p -> forall k t acc, wft (size p) t -> safe (fun _ => True) (gather k p t acc).
    Proof.
      intros W. induction k as [|k IH]; intros t acc T; [exact I|]. cbn [gather].
      assert (E : forall i acc, (i < size p)%nat -> safe (fun _ => True) (match fget p i with None => Panic | Some f => if Program.mem (f_name f) acc then Ok acc else gather k p (f_type f) (acc ++ [f_name f]) end)).
      { intros i a Hi. destruct (get_ok p W i Hi) as (f & -> & [Tf _]). destruct (Program.mem (f_name f) a); [exact I|]. apply IH, Tf. }
      destruct t; try exact I; [apply E, T|apply IH, T|]. cbn [wft] in T.
      assert (K : forall l, Forall (fun x : name * nat => (snd x < size p)%nat) l -> forall r, safe (fun _ => True) r -> safe (fun _ => True)
        (fold_left (fun (r : R (list name)) (x : name * nat) => let! acc := r in match fget p (snd x) with None => Panic | Some f => if Program.mem (f_name f) acc then Ok acc else gather k p (f_type f) (acc ++ [f_name f]) end) l r)).
      { induction 1 as [|x l H _ IHl]; intros r Hr; [exact Hr|]. cbn [fold_left]. apply IHl. eapply safe_bind; [exact Hr|]. intros a _. apply E, H. }
      apply K; [exact T|exact I].
    Qed.
    Lemma scan_safe : forall l p, pwf p -> Forall (fun x : name * nat => (snd x < size p)%nat) l -> safe (fun p' => step p p') (Program.scan n l p).
    Proof.
      induction l as [|[x i] l IH]; intros p W T; [split; [exact W|apply le_n]|]. apply Forall_inv in T as T1. apply Forall_inv_tail in T as T2. cbn [snd] in T1. cbn [Program.scan].
      destruct (get_ok p W i T1) as (f & -> & [Tf _]). eapply safe_bind; [apply gather_safe; assumption|]. intros names _.
      assert (G : step p (if Program.mem (f_name f) names then st_set p i set_cyclic else p)).
      { destruct (Program.mem (f_name f) names); [|split; [exact W|apply le_n]]. apply grown_step, set_grown; [exact W|]. intros g [A B]. split; assumption. }
      destruct G as [W1 L1]. eapply safe_mono; [|apply (IH _ W1)]. { intros p2 [W2 L2]. split; [exact W2|lia]. }
      eapply Forall_impl; [|exact T2]. cbn. lia.
    Qed.

    Lemma prelude_ok x f : In (x, f) (r_prelude rs) -> fun_ok x f.
    Proof. intros H. destruct (sr_prelude rs RS x f H) as [A B]. split; [exact A|]. split; [exact B|]. intros k K. exact (K f (or_introl H)). Qed.
    Lemma imported_safe a c store : headed_program rs a -> swf store -> cwf (List.length store) c ->
      safe (fun p => pwf p /\ (List.length store <= size p)%nat) (from_ast_imported en n rs a c store).
    Proof.
      intros T S C. unfold from_ast_imported.
      set (p0 := {| p_store := store; p_types := []; p_consts := []; p_xforms := []; p_funcs := [] |}).
      assert (W0 : pwf p0). { split; [exact S|]. constructor; cbn; [constructor|discriminate|discriminate|discriminate]. }
      destruct (prelude_pwf (r_prelude rs) p0 prelude_ok W0) as [W1 L1]. cbv zeta. change (size p0) with (List.length store) in L1.
      eapply safe_bind; [apply ffi_decls_safe, W1|]. intros p2 [W2 L2].
      eapply safe_bind; [apply (import_decls_safe c a p2 W2)|]. { intros x q E. apply (twf_mono (List.length store)); [lia|exact (C x q E)]. }
      intros p3 [W3 E3]. eapply safe_bind; [apply (early_safe a p3 W3 T)|]. intros p4 [W4 L4].
      eapply safe_bind; [apply (late_names_safe a p4 W4 T)|]. intros [l5 p5] [[W5 L5] Q5]. cbn [fst snd] in *.
      eapply safe_bind; [apply (late_params_safe l5 p5 W5 Q5)|]. intros [l6 p6] [[W6 L6] Q6]. cbn [fst snd] in *.
      eapply safe_bind; [apply (late_bodies_safe l6 p6 W6 Q6)|]. intros p7 [W7 L7].
      eapply safe_mono; [|apply (scan_safe (p_types p7) p7 W7 (tw_all _ _ (proj2 W7)))]. intros p8 [W8 L8]. split; [exact W8|lia].
    Qed.

    Definition lwf (r : list (name * prog) * list field) : Prop := swf (snd r) /\ cwf (List.length (snd r)) (fst r).
    Lemma bindl_safe {A B} (P : A -> Prop) (Q : B -> Prop) (r : R A) log (k : A -> list name * R B) :
      safe P r -> (forall x, P x -> safe Q (snd (k x))) -> safe Q (snd (bindl r log k)).
    Proof. destruct r; cbn; auto. Qed.
    Lemma load_safe : forall k a c store log, swf store -> cwf (List.length store) c -> safe lwf (snd (load en n rs k a c store log)).
    Proof.
      induction k as [|k IH]; intros a c store log S C; [exact I|]. cbn [load].
      revert c store log S C. induction a as [|d a IHa]; intros c store log S C; [split; assumption|].
      destruct d as [x args f|items from|x kd|x t v]; try (apply IHa; assumption).
      apply bindl_safe with (P := fun _ => True). { pose proof (sr_norm rs RS from) as N. destruct (r_norm rs from); try exact I. exact (N eq_refl). }
      intros x _. destruct (mget x c); [apply IHa; assumption|]. cbv zeta. destruct (sr_load rs RS x) as [N F].
      destruct (r_load rs x) as [[text|]| | |] eqn:E; try exact I; [|exact (N eq_refl)]. cbn [bindl].
      destruct (F text eq_refl) as [Np Tm]. destruct (parse text) as [b|e| |] eqn:Ep; cbn [parsed bindl]; try exact I; [|exact (Np eq_refl)].
      specialize (IH b c store (log ++ [x]) S C). destruct (load en n rs k b c store (log ++ [x])) as [log1 r]. cbn [snd] in IH.
      eapply bindl_safe; [exact IH|]. intros [c1 store1] [S1 C1]. cbn [fst snd] in S1, C1.
      eapply bindl_safe; [apply (imported_safe b c1 store1 (parsed_headed rs text b Ep (Tm b eq_refl)) S1 C1)|]. intros q [Wq Lq]. apply IHa; [exact (proj1 Wq)|].
      intros y q' G. apply mget_mput in G as [->|G]; [exact (proj2 Wq)|]. apply (twf_mono (List.length store1)); [exact Lq|exact (C1 y q' G)].
    Qed.
    Theorem analysis_safe k a : headed_program rs a -> from_ast en n rs k a <> Panic.
    Proof.
      intros T. assert (K : safe (fun _ => True) (from_ast en n rs k a)).
      { unfold from_ast. eapply safe_bind; [apply load_safe; [intros [|]; discriminate|discriminate]|]. intros [c store] [S C]. cbn [fst snd] in S, C.
        eapply safe_mono; [|apply imported_safe; assumption]. intros; exact I. }
      destruct (from_ast en n rs k a); try discriminate. destruct K.
    Qed.
  End Whole.
End Prog.
